(** Correctness of generated code: running the code of a pattern from its start to its end does what
    the evaluator says, for every continuation. *)
From Verif Require Import Base Model_Charset Model_Isa Model_Capture Model_Input Spec_Input Proof_Input Model_VM Model_Pattern Spec_Peg Spec_Scope Proof_Eval Proof_Get Proof_Inline Proof_Codegen Proof_Machine.
Local Open Scope nat_scope.
Arguments Nat.max : simpl never.

(** the assertions of an EmptyOp *)
Definition ctx_of (w1 n1 e1 w2 n2 e2 : bool) : N :=
  (let op := 32 in
   let op := if e1 then N.lor op 5 else if w1 then op else if n1 then N.lor op 1 else op in
   let op := if e2 then N.lor op 10 else if w2 then op else if n2 then N.lor op 2 else op in
   if xorb (negb e1 && w1) (negb e2 && w2) then N.lxor op 48 else op)%N.
Definition holds_of (w1 n1 e1 w2 n2 e2 : bool) (op : byte) : bool :=
  existsb (fun bit => N.testbit (bN op) bit && 
    match bit with
    | 0 => e1 || n1 | 1 => e2 || n2 | 2 => e1 | 3 => e2
    | 4 => xorb (negb e1 && w1) (negb e2 && w2) | 5 => negb (xorb (negb e1 && w1) (negb e2 && w2)) | _ => false end%N) [0; 1; 2; 3; 4; 5]%N.
Definition all_ctx (f : bool -> bool -> bool -> bool -> bool -> bool -> bool) : bool :=
  let bs := [true; false] in
  forallb (fun a => forallb (fun b => forallb (fun c => forallb (fun d => forallb (fun e => forallb (fun g => f a b c d e g) bs) bs) bs) bs) bs) bs.
Lemma ctx_table : all_ctx (fun w1 n1 e1 w2 n2 e2 => forallb (fun op =>
   implb (negb (w1 && n1) && negb (w2 && n2))
   (Bool.eqb (N.land (ctx_of w1 n1 e1 w2 n2 e2) (bN op) =? 0)%N (negb (holds_of w1 n1 e1 w2 n2 e2 op)))) all_bytes) = true.
Proof. vm_compute. reflexivity. Qed.
Lemma all_ctx_ok : forall f, all_ctx f = true -> forall a b c d e g, f a b c d e g = true.
Proof.
  intros f H a b c d e g. unfold all_ctx in H.
  assert (K : forall f, forallb f [true; false] = true -> forall b, f b = true).
  { intros h Hh b0. rewrite forallb_forall in Hh. apply Hh. destruct b0; simpl; auto. }
  pose proof (K _ H a) as H1. cbv beta in H1. pose proof (K _ H1 b) as H2. cbv beta in H2. pose proof (K _ H2 c) as H3. cbv beta in H3.
  pose proof (K _ H3 d) as H4. cbv beta in H4. pose proof (K _ H4 e) as H5. cbv beta in H5. exact (K _ H5 g).
Qed.
Lemma word_char_ok : forall b, is_word_char b = word_char b.
Proof. destruct b; reflexivity. Qed.
Lemma empty_ctx : forall s i op,
  (N.land (empty_op_context (byte_before s i) (nth_error s i)) (bN op) =? 0)%N = negb (empty_op_holds s i op).
Proof.
  intros s i op.
  set (isw := fun o : option byte => match o with Some b => word_char b | None => false end).
  set (isn := fun o : option byte => match o with Some b => byte_eqb b x0a | None => false end).
  set (ise := fun o : option byte => match o with Some _ => false | None => true end).
  pose proof (all_ctx_ok _ ctx_table (isw (byte_before s i)) (isn (byte_before s i)) (ise (byte_before s i))
                (isw (nth_error s i)) (isn (nth_error s i)) (ise (nth_error s i))) as H.
  cbv beta in H. rewrite forallb_forall in H. specialize (H op (in_all_bytes op)).
  assert (Hwn : forall o, isw o && isn o = false).
  { intros [b|]; simpl; [|reflexivity]. destruct (byte_eqb b x0a) eqn:E; [|apply andb_false_r]. apply byte_eqb_eq in E. subst b. reflexivity. }
  rewrite !Hwn in H. simpl implb in H. apply Bool.eqb_prop in H.
  etransitivity; [|etransitivity; [exact H|]].
  - f_equal. f_equal. unfold empty_op_context, ctx_of. destruct (byte_before s i) as [a|], (nth_error s i) as [b|]; cbn [isw isn ise]; rewrite ?word_char_ok;
      repeat match goal with |- context [word_char ?x] => destruct (word_char x) end; simpl; rewrite ?andb_true_r; reflexivity.
  - f_equal. unfold empty_op_holds, holds_of, assertion, word_at. cbn [existsb].
    destruct (byte_before s i) as [a|], (nth_error s i) as [b|]; reflexivity.
Qed.

Ltac up1 H a b := eapply (evals_up _ _ _ _ _ _ _ _ _ _ _ (Nat.max a b)) in H; [|lia].

Section Frag.
Variable bufsz : nat.
Hypothesis Hbuf : 0 < bufsz.
Variable T : Type.
Variable ops : table_ops T.
Variable CS : Type.
Variable check : nat -> CS -> list byte -> list byte -> nat -> Z -> Z -> CS * option nat.
Variable intrvl : option (nat * nat).
Variable s : list byte.
Variable P : program.
Variable thr : nat.
Variable MOK : Z -> env -> pattern -> Prop.
Variable TOK : Z -> env -> pattern -> Prop.
Hypothesis Hlabels : NoDup (labels P).
Hypothesis Hany : forall n, In (IAny n) P -> n = x01 \/ List.length s <= bufsz.
(** a checker does not skip past the end of the input *)
Hypothesis Hcheck : forall ck cs bs j id fl cs' n, check ck cs bs s j id fl = (cs', Some n) -> j <= List.length s -> j + n <= List.length s.
Notation world := (world CS).
Notation mstate := (mstate T CS).
Notation eval := (eval s check).
Notation CG := (CG thr MOK TOK).

(** the captures that remain when only an interval of the input is of interest *)
Fixpoint prune1 (t : ctree) : list ctree :=
  match t with
  | CNode id st ln kids =>
      if ivl_overlaps intrvl st (st + ln)
      then [CNode id st ln ((fix go (ts : list ctree) : list ctree := match ts with [] => [] | t :: ts => prune1 t ++ go ts end) kids)]
      else []
  end.
Fixpoint pr (ts : list ctree) : list ctree := match ts with [] => [] | t :: ts => prune1 t ++ pr ts end.
Lemma pr_app : forall a b, pr (a ++ b) = pr a ++ pr b.
Proof. induction a as [|c a IH]; intro b; simpl; [reflexivity|]. rewrite IH, app_assoc. reflexivity. Qed.
Lemma prune1_eq : forall id st ln kids, prune1 (CNode id st ln kids) = if ivl_overlaps intrvl st (st + ln) then [CNode id st ln (pr kids)] else [].
Proof.
  intros. simpl. replace ((fix go (ts : list ctree) : list ctree := match ts with [] => [] | t :: ts0 => prune1 t ++ go ts0 end) kids) with (pr kids); [reflexivity|].
  induction kids as [|c cs IH]; simpl; congruence.
Qed.
Lemma node_flat : forall id i j cs ts, i <= j -> flat cs = pr ts -> flat (node intrvl id i j cs) = pr [CNode id i (j - i) ts].
Proof.
  intros id i j cs ts Hij Hf. cbn [pr]. rewrite app_nil_r, prune1_eq. unfold node. replace (i + (j - i)) with j by lia.
  destruct (ivl_overlaps intrvl i j); [|reflexivity]. cbn [flat]. rewrite app_nil_r. unfold new_node. rewrite flat1_eq, Hf. reflexivity.
Qed.

(** repetition of a pattern, at least once *)
Inductive reps1 (E : env) (q : pattern) : nat -> world -> nat -> world -> list ctree -> nat -> Prop :=
| r1_one : forall n i w j w' ts x, eval n E q i w = (Some (RSucc j ts), w', x) -> reps1 E q i w j w' ts x
| r1_more : forall n i w j w1 ts x k w' us y, eval n E q i w = (Some (RSucc j ts), w1, x) -> reps1 E q j w1 k w' us y ->
    reps1 E q i w k w' (ts ++ us) (Nat.max x y).
Lemma reps1_app : forall E q i w j w1 ts x, reps1 E q i w j w1 ts x -> forall k w' us y, reps1 E q j w1 k w' us y ->
  reps1 E q i w k w' (ts ++ us) (Nat.max x y).
Proof.
  intros E q i w j w1 ts x H. induction H; intros k' w'' us' y' H'.
  - eapply r1_more; eassumption.
  - rewrite <- app_assoc, <- Nat.max_assoc. eapply r1_more; [eassumption|]. apply IHreps1. exact H'.
Qed.
Lemma star_reps : forall E q i w j w1 us y, reps1 E q i w j w1 us y -> forall n r w' x,
  eval n E (PStar q) i w = (Some r, w', x) ->
  exists n' r' x', n' < n /\ eval n' E (PStar q) j w1 = (Some r', w', x') /\ x = Nat.max y x' /\
    match r' with RSucc k vs => r = RSucc k (us ++ vs) | RAbort k => r = RAbort k | RFail => False end.
Proof.
  intros E q i w j w1 us y H. induction H; intros m r w0 z Hs.
  - rewrite eval_star in Hs. destruct (eval m E q i w) as [[[o|] w2] x2] eqn:Em; [|discriminate].
    up1 H n m. up1 Em n m. rewrite H in Em. injection Em as <- <- <-. cbn [ebind] in Hs.
    destruct m as [|m]; [discriminate|]. destruct (eval m E (PStar q) j w') as [[[o|] w3] x3] eqn:Es; [|discriminate].
    destruct o; cbn [eorelse] in Hs.
    + elim (star_not_fail _ _ _ _ _ _ _ _ _ _ Es).
    + injection Hs as <- <- <-. exists m, (RSucc j0 ts0), x3. repeat split; auto.
    + injection Hs as <- <- <-. exists m, (RAbort j0), x3. repeat split; auto.
  - rewrite eval_star in Hs. destruct (eval m E q i w) as [[[o|] w2] x2] eqn:Em; [|discriminate].
    up1 H n m. up1 Em n m. rewrite H in Em. injection Em as <- <- <-. cbn [ebind] in Hs.
    destruct m as [|m]; [discriminate|]. destruct (eval m E (PStar q) j w1) as [[[o|] w3] x3] eqn:Es; [|discriminate].
    destruct (IHreps1 _ _ _ _ Es) as (n' & r' & x' & H1 & H2 & H3 & H4).
    destruct o; cbn [eorelse] in Hs.
    + elim (star_not_fail _ _ _ _ _ _ _ _ _ _ Es).
    + injection Hs as <- <- <-. exists n', r', x'. split; [lia|]. split; [exact H2|]. split; [lia|].
      destruct r'; [contradiction| |discriminate]. injection H4 as -> ->. rewrite app_assoc. reflexivity.
    + injection Hs as <- <- <-. exists n', r', x'. split; [lia|]. split; [exact H2|]. split; [lia|].
      destruct r'; [contradiction|discriminate|]. exact H4.
Qed.

(** positions stay within the input *)
Definition in_range (i : nat) (o : option pres) : Prop :=
  match o with Some (RSucc j _) | Some (RAbort j) => i <= j <= List.length s | _ => True end.
Lemma range_bind : forall i (a : res CS) f, in_range i (fst (fst a)) -> (forall j w, i <= j <= List.length s -> in_range j (fst (fst (f j w)))) ->
  in_range i (fst (fst (ebind a f))).
Proof.
  intros i [[[[|j ts|j]|] w] x] f H1 H2; simpl in *; auto. specialize (H2 j w H1). destruct (f j w) as [[[[|j' ts'|j']|] w'] x']; simpl in *; auto; lia.
Qed.
Lemma range_orelse : forall i (a : res CS) f, in_range i (fst (fst a)) -> (forall w, in_range i (fst (fst (f w)))) ->
  in_range i (fst (fst (eorelse a f))).
Proof.
  intros i [[[[|j ts|j]|] w] x] f H1 H2; simpl in *; auto. specialize (H2 w). destruct (f w) as [[[[|j' ts'|j']|] w'] x']; simpl in *; auto.
Qed.
Lemma range_emap : forall i (a : res CS) f, in_range i (fst (fst a)) -> (forall j ts, i <= j <= List.length s -> in_range i (Some (f j ts))) ->
  in_range i (fst (fst (emap f a))).
Proof. intros i [[[[|j ts|j]|] w] x] f H1 H2; simpl in *; auto. apply (H2 j ts). exact H1. Qed.

Lemma eval_range : forall n E p i w, i <= List.length s -> in_range i (fst (fst (eval n E p i w))).
Proof.
  induction n as [n IHn] using lt_wf_ind; intros E p; revert E; induction p using pattern_ind'; intros E i w Hi.
  - rewrite eval_alt. apply range_orelse; auto.
  - rewrite eval_seq. apply range_bind; auto. intros. apply IHp2. lia.
  - rewrite eval_star. apply range_orelse; [|intro; simpl; lia]. apply range_bind; auto. intros. destruct n; [exact I|]. apply IHn; lia.
  - rewrite eval_plus, eval_seq. apply range_bind; auto. intros. rewrite eval_star. apply range_orelse; [|intro; simpl; lia]. apply range_bind; [apply IHp; lia|]. intros. destruct n; [exact I|]. apply IHn; lia.
  - rewrite eval_opt, eval_alt. apply range_orelse; auto. intro. rewrite eval_empty. simpl. lia.
  - rewrite eval_not. specialize (IHp E i w Hi). destruct (eval n E p i w) as [[[[|j ts|j]|] w'] x']; simpl in *; auto.
  - rewrite eval_and. apply range_emap; auto. intros. simpl. lia.
  - rewrite eval_cap. apply range_emap; auto.
  - rewrite eval_memo. auto.
  - rewrite eval_check. specialize (IHp E i w Hi). destruct (eval n E p i w) as [[[[|j ts|j]|] [e c]] x']; simpl in *; auto.
    destruct (check _ _ _ _ _ _ _) as [c' [m|]] eqn:Ec; simpl; auto. apply Hcheck in Ec; lia.
  - rewrite eval_grammar. destruct n; [exact I|]. destruct (assoc defs st); [|exact I]. apply IHn; lia.
  - rewrite eval_search. destruct n; [exact I|]. apply range_orelse; [apply IHn; lia|]. intro w'.
    destruct (Nat.ltb_spec i (List.length s)); [|exact I].
    specialize (IHn n ltac:(lia) E (PSearch p) (S i) w' ltac:(lia)).
    destruct (eval n E (PSearch p) (S i) w') as [[[[|j ts|j]|] w''] x']; simpl in *; auto; lia.
  - rewrite eval_class. unfold class_eval. destruct (nth_error s i) eqn:En; [|exact I]. destruct (cs_has c b); [|exact I].
    assert (i < List.length s) by (apply nth_error_Some; congruence). simpl. lia.
  - rewrite eval_lit. revert i Hi. induction l as [|b l IH]; intros i Hi; simpl; [lia|].
    destruct (nth_error s i) eqn:En; [|exact I]. destruct (byte_eqb b b0); [|exact I].
    assert (i < List.length s) by (apply nth_error_Some; congruence).
    specialize (IH (S i) ltac:(lia)). destruct (lit_eval s l (S i) w) as [[[[|j ts|j]|] w''] x']; simpl in *; auto; lia.
  - destruct o as [q|]; [rewrite eval_inl; apply H; exact Hi|]. rewrite eval_nt. destruct n; [exact I|]. destruct (lookup E x) as [[b E']|]; [|exact I]. apply IHn; lia.
  - rewrite eval_dot. cbn [fst]. destruct (Nat.leb_spec (i + N.to_nat (bN n0)) (List.length s)); simpl; [|exact I]. lia.
  - destruct o as [q|]; [rewrite eval_error; apply H; exact Hi|]. rewrite eval_error_none. simpl. lia.
  - rewrite eval_emptyop. cbn [fst]. destruct (empty_op_holds s i op); simpl; lia.
  - rewrite eval_empty. simpl. lia.
Qed.
Lemma eval_succ : forall n E p i w j ts w' x, eval n E p i w = (Some (RSucc j ts), w', x) -> i <= List.length s -> i <= j <= List.length s.
Proof. intros. pose proof (eval_range n E p i w H0) as R. rewrite H in R. exact R. Qed.
Lemma eval_abort : forall n E p i w j w' x, eval n E p i w = (Some (RAbort j), w', x) -> i <= List.length s -> i <= j <= List.length s.
Proof. intros. pose proof (eval_range n E p i w H0) as R. rewrite H in R. exact R. Qed.
Lemma reps1_range : forall E q i w j w' ts x, reps1 E q i w j w' ts x -> i <= List.length s -> i <= j <= List.length s.
Proof.
  intros E q i w j w' ts x H. induction H; intro Hi; apply eval_succ in H; auto. specialize (IHreps1 ltac:(lia)). lia.
Qed.

(** how much of the examined input is known to be recorded by the machine *)
Variable XB : nat -> nat -> Prop.
Hypothesis XB_mono : forall x F F', XB x F -> F <= F' -> XB x F'.
Hypothesis XB_down : forall x y F, XB x F -> y <= x -> XB y F.
Hypothesis XB_max : forall x y F, XB x F -> XB y F -> XB (Nat.max x y) F.
Hypothesis XB_le : forall x F, x <= S F -> XB x F.

Notation stored := (stored intrvl).
(** invariant of the memoization table *)
Variable TI : T -> nat -> Prop.
Hypothesis TI_mono : forall t F F', TI t F -> F <= F' -> TI t F'.
Hypothesis H_sync : forall tbl F id i, TI tbl F -> i <= List.length s -> TI (snd (t_get ops tbl id i)) F.
Hypothesis H_get : forall tbl F id E q i w e, TI tbl F -> MOK id E q -> i <= List.length s -> fst (t_get ops tbl id i) = Some e ->
  exists n r x, eval n E q i w = (Some r, w, x) /\ XB x F /\
    match me_len e with
    | None => r = RFail
    | Some len => exists ts, r = RSucc (i + len) ts /\ flat (me_capt e) = pr ts
    end.
Hypothesis H_put_ok : forall tbl F id E q i n w j ts w' x cs, TI tbl F -> MOK id E q -> i <= List.length s ->
  eval n E q i w = (Some (RSucc j ts), w', x) -> XB x F -> flat cs = pr ts ->
  TI (t_put ops tbl id i (Some (j - i)) (Nat.max F j - i + 1) 1 (stored cs)) F.
Hypothesis H_put_fail : forall tbl F id E q i n w w' x pos, TI tbl F -> MOK id E q -> i <= List.length s ->
  eval n E q i w = (Some RFail, w', x) -> XB x F ->
  TI (t_put ops tbl id i None (Nat.max F pos - i + 1) 0 (stored [])) F.
Hypothesis H_tget : forall tbl F id E q i w e, TI tbl F -> TOK id E q -> i <= List.length s -> fst (t_get ops tbl id i) = Some e ->
  exists len ts x, me_len e = Some len /\ reps1 E q i w (i + len) w ts x /\ XB x F /\ flat (me_capt e) = pr ts.
Hypothesis H_tput : forall tbl F id E q i w j ts w' x cs cnt, TI tbl F -> TOK id E q -> i <= List.length s ->
  reps1 E q i w j w' ts x -> XB x F -> flat cs = pr ts ->
  TI (t_put ops tbl id i (Some (j - i)) (Nat.max F j - i + 1) cnt (stored cs)) F.

Variable X : mstate -> Prop.
Hypothesis X_inv : forall st, X st -> (exists l, nth_error P (m_ip st) = Some (ILabel l)) \/ nth_error P (m_ip st) = Some IReturn ->
  exists st', sym_step bufsz ops check intrvl P st = Next st' /\ X st'.
Notation G := (G bufsz T ops CS check intrvl s P TI X).
Notation FL := (FL bufsz T ops CS check intrvl s P TI X).
Notation AB := (AB bufsz T CS intrvl s TI).
Notation at_ k i := (nth_error P k = Some i).
Notation wp := (wp bufsz T ops CS check intrvl P X).

(** ---- the tree memoization of repetitions ---- *)
Definition tcapts (tr : list sentry) : list capture := List.concat (rev (map s_capt tr)).
Lemma tcapts_cons : forall e tr, tcapts (e :: tr) = tcapts tr ++ s_capt e.
Proof. intros. unfold tcapts. simpl. rewrite concat_app. simpl. rewrite app_nil_r. reflexivity. Qed.

Lemma G_treeopen : forall Q k L id i w stk base F, at_ k (IMemoTreeOpen L id) ->
  (forall tbl, TI tbl F -> TI (snd (t_get ops tbl id i)) F /\ match fst (t_get ops tbl id i) with
     | Some (MEntry None _ _) => FL Q w stk base F
     | Some (MEntry (Some len) cnt cs) => i + len <= List.length s /\
          G Q (lbl_index P L) (i + len) w (SE (KTree id i cnt) cs :: stk) base (Nat.max F (i + len))
     | None => G Q (S k) i w (SE (KTree id i 0) [] :: stk) base F
     end) -> G Q k i w stk base F.
Proof.
  intros Q k L id i w stk base F Hp H src tbl rng Hs Ht. apply wp_step. unfold sym_step. cbn [m_ip]. rewrite Hp. cbn [map_lbl exec_d].
  specialize (H tbl Ht). clear Ht. unfold mpos. cbn [m_src m_tbl]. rewrite (srcok_pos _ _ _ _ _ Hs).
  destruct (t_get ops tbl id i) as [[[[len|] cnt cs]|] tbl']; cbn [fst snd] in H; destruct H as [Ht H].
  - destruct H as [Hn H]. unfold push, add, mpos. cbn -[i_advance i_peek app]. rewrite (srcok_pos _ _ _ _ _ Hs). unfold advance, peek. cbn -[i_advance i_peek].
    pose proof (srcok_advance _ Hbuf _ _ _ _ _ Hs Hn) as Ha. destruct (srcok_peek _ Hbuf _ _ _ _ Ha) as [_ Hs'].
    destruct (i_peek (snd (i_advance bufsz src len))) as [b src']. cbn. apply H; [exact Hs'|]. eapply TI_mono; [eassumption|lia].
  - unfold fail. cbn. eapply FL_here; eassumption.
  - unfold push, mpos. cbn. rewrite (srcok_pos _ _ _ _ _ Hs). apply H; assumption.
Qed.
Lemma G_treeinsert : forall Q k id p c cs i w stk base F, at_ k IMemoTreeInsert ->
  (forall tbl, TI tbl F -> TI (t_put ops tbl id p (Some (i - p)) (Nat.max F i - p + 1) (S c) (stored cs)) F) ->
  G Q (S k) i w (SE (KTree id p (S c)) cs :: stk) base F -> G Q k i w (SE (KTree id p c) cs :: stk) base F.
Proof.
  intros Q k id p c cs i w stk base F Hp Hput H src tbl rng Hs Ht. apply wp_step. unfold sym_step. cbn [m_ip]. rewrite Hp. cbn [map_lbl exec_d].
  cbn [m_stk]. unfold memoize, mpos, set_stk. cbn [m_src m_stk m_cs m_ip m_base m_tbl m_errs m_range].
  rewrite (srcok_pos _ _ _ _ _ Hs), (srcok_F _ _ _ _ _ Hs). cbn -[Nat.sub]. apply H; [exact Hs|]. apply Hput. exact Ht.
Qed.
Definition is_tree (id : Z) (e : sentry) : Prop := match s_kind e with KTree id' _ _ => id' = id | _ => False end.
Lemma tree_close_ok : forall n tr id stk base ip src (tbl : T) e (c : CS) rng, Forall (is_tree id) tr -> ntop stk -> List.length tr <= n ->
  tree_close n id (MS ip src (tr ++ stk) base tbl e c rng) =
  MS ip src (fst (add_capt (tcapts tr) stk base)) (snd (add_capt (tcapts tr) stk base)) tbl e c rng.
Proof.
  induction n as [|n IH]; intros tr id stk base ip src tbl e c rng Ht Hn Hl.
  - destruct tr; [|simpl in Hl; lia]. unfold tcapts. cbn [map rev List.concat]. rewrite add_nil. reflexivity.
  - destruct tr as [|[k cs] tr].
    + unfold tcapts. cbn [map rev List.concat]. rewrite add_nil. simpl.
      destruct stk as [|[[] cs] stk]; try reflexivity. destruct Hn.
    + inversion Ht as [|? ? H1 H2]; subst. unfold is_tree in H1. cbn [s_kind] in H1. destruct k; try destruct H1.
      cbn [tree_close app m_stk]. rewrite Z.eqb_refl. unfold pop, add, set_stk. cbn [m_stk snd m_base m_ip m_src m_tbl m_errs m_cs m_range s_capt].
      destruct tr as [|[k' cs'] tr].
      * rewrite tcapts_cons. change (tcapts []) with (@nil capture). cbn [app s_capt].
        rewrite (surjective_pairing (add_capt cs stk base)) at 1.
        rewrite <- (app_nil_l (fst _)) at 1. rewrite (IH []); [|constructor|apply ntop_add; exact Hn|simpl; lia].
        change (tcapts []) with (@nil capture). rewrite add_nil. reflexivity.
      * cbn [app add_capt s_kind s_capt].
        change (SE k' (cs' ++ cs) :: tr ++ stk) with ((SE k' (cs' ++ cs) :: tr) ++ stk). inversion H2; subst.
        rewrite IH; [|constructor; assumption|exact Hn|simpl in *; lia].
        rewrite !tcapts_cons. cbn [s_capt]. rewrite app_assoc. reflexivity.
Qed.
Lemma G_treeclose : forall Q k id tr i w stk base F, at_ k (IMemoTreeClose id) -> Forall (is_tree id) tr -> ntop stk ->
  G Q (S k) i w (fst (add_capt (tcapts tr) stk base)) (snd (add_capt (tcapts tr) stk base)) F ->
  G Q k i w (tr ++ stk) base F.
Proof.
  intros Q k id tr i w stk base F Hp Htr Hn H src tbl rng Hs Ht. apply wp_step. unfold sym_step. cbn [m_ip]. rewrite Hp. cbn [map_lbl exec_d m_stk].
  rewrite tree_close_ok; [|exact Htr|exact Hn|rewrite app_length; lia]. cbn -[add_capt]. apply H; assumption.
Qed.
Lemma tree_pops_ok : forall tr1 k cs rest base ip src (tbl : T) e (c : CS) rng,
  tree_pops (List.length tr1) (MS ip src (tr1 ++ SE k cs :: rest) base tbl e c rng) =
  MS ip src (SE k (cs ++ tcapts tr1) :: rest) base tbl e c rng.
Proof.
  intro tr1. remember (List.length tr1) as n eqn:Hn. revert tr1 Hn. induction n as [|n IH]; intros [|[k1 c1] tr1] Hn k cs rest base ip src tbl e c rng; try discriminate.
  - unfold tcapts. simpl. rewrite app_nil_r. reflexivity.
  - cbn [tree_pops app]. unfold pop, add, set_stk. cbn [m_stk snd m_base m_ip m_src m_tbl m_errs m_cs m_range s_capt].
    injection Hn as Hn. destruct tr1 as [|[k2 c2] tr1].
    + cbn [app add_capt s_kind s_capt]. subst n. cbn [List.length tree_pops]. rewrite tcapts_cons. reflexivity.
    + cbn [app add_capt s_kind s_capt].
      change (SE k2 (c2 ++ c1) :: tr1 ++ SE k cs :: rest) with ((SE k2 (c2 ++ c1) :: tr1) ++ SE k cs :: rest).
      rewrite (IH (SE k2 (c2 ++ c1) :: tr1)) by exact Hn. rewrite !tcapts_cons. cbn [s_capt]. rewrite !app_assoc. reflexivity.
Qed.

Section Tree.
Variables (E : env) (q : pattern) (m : Z).
Hypothesis Htok : TOK m E q.
(** the tree entries on top of the stack, top first, cover the iterations so far *)
Inductive chain (i0 : nat) (w0 : world) : list sentry -> nat -> world -> list ctree -> nat -> Prop :=
| ch_nil : chain i0 w0 [] i0 w0 [] 0
| ch_cons : forall tr p wp ts x i w us y cs cnt, chain i0 w0 tr p wp ts x -> reps1 E q p wp i w us y -> flat cs = pr us ->
    p <= List.length s -> chain i0 w0 (SE (KTree m p cnt) cs :: tr) i w (ts ++ us) (Nat.max x y).
Lemma chain_trees : forall i0 w0 tr i w ts x, chain i0 w0 tr i w ts x -> Forall (is_tree m) tr.
Proof. intros i0 w0 tr i w ts x H. induction H; constructor; auto. reflexivity. Qed.
Lemma chain_flat : forall i0 w0 tr i w ts x, chain i0 w0 tr i w ts x -> flat (tcapts tr) = pr ts.
Proof. intros i0 w0 tr i w ts x H. induction H; [reflexivity|]. rewrite tcapts_cons, flat_app, pr_app, IHchain. cbn [s_capt]. rewrite H1. reflexivity. Qed.
Lemma chain_merge : forall i0 w0 tr1 p c cs rest i w ts x, chain i0 w0 (tr1 ++ SE (KTree m p c) cs :: rest) i w ts x ->
  forall c', chain i0 w0 (SE (KTree m p c') (cs ++ tcapts tr1) :: rest) i w ts x.
Proof.
  intros i0 w0. induction tr1 as [|e tr1 IH]; intros p c cs rest i w ts x H c'.
  - change (tcapts []) with (@nil capture). rewrite app_nil_r. inversion H; subst. econstructor; eassumption.
  - simpl in H. inversion H as [|? ? ? ? ? ? ? ? ? ? ? Hc Hr Hf Hl]; subst. specialize (IH _ _ _ _ _ _ _ _ Hc c'). inversion IH; subst.
    rewrite tcapts_cons. cbn [s_capt]. rewrite <- app_assoc, <- Nat.max_assoc.
    rewrite (app_assoc cs). econstructor; [eassumption|eapply reps1_app; eassumption| |assumption].
    rewrite flat_app, pr_app. congruence.
Qed.

Lemma tree_loop_ok : forall fuel tr seen accum i0 w0 i w ts x stk base ip src tbl e (c : CS) rng F,
  chain i0 w0 tr i w ts x -> XB x F -> ntop stk -> seen < List.length tr -> srcok bufsz s src i F -> TI tbl F ->
  exists tr' tbl', tree_loop ops intrvl fuel seen accum (MS ip src (tr ++ stk) base tbl e c rng) = MS ip src (tr' ++ stk) base tbl' e c rng /\
    chain i0 w0 tr' i w ts x /\ TI tbl' F.
Proof.
  induction fuel as [|fuel IH]; intros tr seen accum i0 w0 i w ts x stk base ip src tbl e c rng F Hc Hx Hn Hl Hs Ht.
  - exists tr, tbl. split; [reflexivity|]. auto.
  - cbn [tree_loop m_stk].
    destruct (nth_error (tr ++ stk) seen) as [[[] tcs]|] eqn:E1; try (exists tr, tbl; split; [reflexivity|]; auto).
    destruct (nth_error (tr ++ stk) (S seen)) as [[[] ncs]|] eqn:E2; try (exists tr, tbl; split; [reflexivity|]; auto).
    assert (Hl2 : S seen < List.length tr).
    { destruct (Nat.eq_dec (S seen) (List.length tr)) as [Eq|]; [|lia]. exfalso. rewrite nth_error_app2 in E2 by lia.
      replace (S seen - List.length tr) with 0 in E2 by lia. destruct stk as [|e0 stk]; [discriminate|]. simpl in E2. injection E2 as ->. exact Hn. }
    rewrite nth_error_app1 in E1, E2 by lia. cbv zeta.
    destruct (accum + count <? count0). { eapply IH; eassumption. }
    apply nth_error_split in E2. destruct E2 as (l1 & rest & -> & Hl1).
    destruct (List.exists_last (l := l1)) as (tr1 & ent & ->); [intro; subst; discriminate|].
    rewrite app_length in Hl1. simpl in Hl1. assert (Hlen : List.length tr1 = seen) by lia.
    rewrite nth_error_app1 in E1 by (rewrite app_length; simpl; lia). rewrite nth_error_app2 in E1 by lia. rewrite <- Hlen, Nat.sub_diag in E1.
    simpl in E1. injection E1 as ->.
    pose proof (chain_trees _ _ _ _ _ _ _ Hc) as Htr. rewrite <- app_assoc in *. cbn [app] in *.
    assert (Hid : id = m). { rewrite Forall_forall in Htr. apply (Htr (SE (KTree id pos count) tcs)). apply in_or_app. right. left. reflexivity. }
    assert (Hid0 : id0 = m). { rewrite Forall_forall in Htr. apply (Htr (SE (KTree id0 pos0 count0) ncs)). apply in_or_app. right. right. left. reflexivity. }
    subst id id0. pose proof (chain_merge _ _ _ _ _ _ _ _ _ _ _ Hc count) as Hm.
    rewrite <- app_assoc. cbn [app]. replace (S seen - 1) with (List.length tr1) by lia. rewrite tree_pops_ok.
    inversion Hm as [|? ? ? ? ? ? ? us y ? ? Hm1 Hr Hf Hle]; subst. inversion Hm1 as [|? ? ? ts1 x1 ? ? us1 y1 ? ? Hm2 Hr1 Hf1 Hle1]; subst.
    unfold pop. cbn [m_stk]. unfold set_stk. cbn [m_ip m_src m_tbl m_errs m_cs m_range m_base].
    assert (Hmerge : forall d cnt, flat d = flat (tcs ++ tcapts tr1) -> 
       chain i0 w0 (SE (KTree m pos0 cnt) (ncs ++ d) :: rest) i w (ts1 ++ us1 ++ us) (Nat.max x1 (Nat.max y1 y)) /\
       forall tbl, TI tbl F -> TI (t_put ops tbl m pos0 (Some (i - pos0)) (Nat.max F i - pos0 + 1) cnt (stored (ncs ++ d))) F).
    { intros d cnt Hd. assert (Hr2 := reps1_app _ _ _ _ _ _ _ _ Hr1 _ _ _ _ Hr).
      assert (Hf2 : flat (ncs ++ d) = pr (us1 ++ us)) by (rewrite flat_app, pr_app; congruence). split.
      - econstructor; eassumption.
      - intros tbl0 Ht0. eapply H_tput; try eassumption. eapply XB_down; [exact Hx|lia]. }
    rewrite <- app_assoc, <- Nat.max_assoc in *.
    match goal with |- context [match ?X with SE _ _ => _ end] => idtac | _ => idtac end.
    assert (Hgo : forall d, flat d = flat (tcs ++ tcapts tr1) -> exists tr' tbl',
      tree_loop ops intrvl fuel 0 0 (memoize ops intrvl m pos0 (Some (mpos (MS ip src (SE (KTree m pos0 (accum + count + count0)) (ncs ++ d) :: rest ++ stk) base tbl e c rng) - pos0)) (accum + count + count0) (ncs ++ d)
         (MS ip src (SE (KTree m pos0 (accum + count + count0)) (ncs ++ d) :: rest ++ stk) base tbl e c rng)) =
      MS ip src (tr' ++ stk) base tbl' e c rng /\ chain i0 w0 tr' i w (ts1 ++ us1 ++ us) (Nat.max x1 (Nat.max y1 y)) /\ TI tbl' F).
    { intros d Hd. destruct (Hmerge d (accum + count + count0) Hd) as [Hch Hput].
      unfold memoize, mpos. cbn [m_src m_stk m_cs m_ip m_base m_tbl m_errs m_range set_tbl]. rewrite (srcok_pos _ _ _ _ _ Hs), (srcok_F _ _ _ _ _ Hs).
      apply (IH (SE (KTree m pos0 (accum + count + count0)) (ncs ++ d) :: rest) 0 0 i0 w0 i w (ts1 ++ us1 ++ us) (Nat.max x1 (Nat.max y1 y)) stk base ip src
         (t_put ops tbl m pos0 (Some (i - pos0)) (Nat.max F i - pos0 + 1) (accum + count + count0) (stored (ncs ++ d))) e c rng F Hch Hx Hn); [simpl; lia|exact Hs|].
      apply Hput. exact Ht. }
    destruct (tcs ++ tcapts tr1) as [|c0 cl] eqn:Ecs.
    + destruct (Hgo [] eq_refl) as (tr' & tbl' & H1 & H2 & H3). rewrite app_nil_r in H1. exists tr', tbl'. auto.
    + destruct intrvl as [iv|] eqn:Ei.
      * destruct (Hgo (c0 :: cl) eq_refl) as (tr' & tbl' & H1 & H2 & H3). exists tr', tbl'. auto.
      * destruct (Hgo [new_dummy pos (i - pos) (c0 :: cl)]) as (tr' & tbl' & H1 & H2 & H3).
        { change (flat [new_dummy pos (i - pos) (c0 :: cl)]) with (flat1 (new_dummy pos (i - pos) (c0 :: cl)) ++ []).
          rewrite app_nil_r. unfold new_dummy. rewrite flat1_eq. reflexivity. }
        exists tr', tbl'. split; [|auto]. unfold mpos at 1. cbn [m_src]. rewrite (srcok_pos _ _ _ _ _ Hs). exact H1.
Qed.
End Tree.

Lemma G_tree : forall E q m Q k i0 w0 tr i w ts x stk base F, at_ k IMemoTree -> TOK m E q ->
  chain E q m i0 w0 tr i w ts x -> XB x F -> ntop stk -> 0 < List.length tr ->
  (forall tr', chain E q m i0 w0 tr' i w ts x -> G Q (S k) i w (tr' ++ stk) base F) -> G Q k i w (tr ++ stk) base F.
Proof.
  intros E q m Q k i0 w0 tr i w ts x stk base F Hp Htok Hc Hx Hn Hl H src tbl rng Hs Ht.
  apply wp_step. unfold sym_step. cbn [m_ip]. rewrite Hp. cbn [map_lbl exec_d m_stk].
  destruct (tree_loop_ok E q m Htok (S (List.length (tr ++ stk)) * S (List.length (tr ++ stk))) tr 0 0 i0 w0 i w ts x stk base k src tbl (fst w) (snd w) rng F Hc Hx Hn Hl Hs Ht) as (tr' & tbl' & H1 & H2 & H3).
  cbv zeta. rewrite H1. cbn. apply (H tr'); assumption.
Qed.

(** ---- placement of code in the program ---- *)
Definition code_at (L : string -> option nat) (k : nat) (c : program) : Prop :=
  forall t ins, nth_error c t = Some ins ->
    match ins with
    | IOpenCall x => exists l, L x = Some l /\ (at_ (k + t) (ICall l) \/ at_ (k + t) (IJump l) /\ tailp P (S (k + t)))
    | _ => at_ (k + t) ins
    end.
Lemma code_at_app : forall L k a b, code_at L k (a ++ b) <-> code_at L k a /\ code_at L (k + List.length a) b.
Proof.
  intros L k a b. split.
  - intro H. split; intros t ins Ht.
    + apply (H t ins). rewrite nth_error_app1; [exact Ht|]. apply nth_error_Some. congruence.
    + specialize (H (List.length a + t) ins). rewrite nth_error_app2 in H by lia. replace (List.length a + t - List.length a) with t in H by lia.
      specialize (H Ht). rewrite Nat.add_assoc in H. exact H.
  - intros [H1 H2] t ins Ht. destruct (Nat.lt_ge_cases t (List.length a)) as [Hl|Hl].
    + rewrite nth_error_app1 in Ht by exact Hl. apply H1. exact Ht.
    + rewrite nth_error_app2 in Ht by exact Hl. specialize (H2 _ _ Ht). replace (k + List.length a + (t - List.length a)) with (k + t) in H2 by lia. exact H2.
Qed.
Lemma code_at_cons : forall L k ins c, code_at L k (ins :: c) <-> code_at L k [ins] /\ code_at L (S k) c.
Proof. intros. change (ins :: c) with ([ins] ++ c). rewrite code_at_app. simpl. rewrite Nat.add_1_r. reflexivity. Qed.
Lemma code_at_one : forall L k ins, code_at L k [ins] -> match ins with IOpenCall _ => False | _ => True end -> at_ k ins.
Proof. intros L k ins H Hi. specialize (H 0 ins eq_refl). rewrite Nat.add_0_r in H. destruct ins; try exact H. destruct Hi. Qed.
Lemma code_at_head : forall L k ins c, code_at L k (ins :: c) -> match ins with IOpenCall _ => False | _ => True end -> at_ k ins.
Proof. intros L k ins c H Hi. apply code_at_cons in H. eapply code_at_one; [apply H|exact Hi]. Qed.
Lemma code_at_hd : forall L k ins c, code_at L k (ins :: c) -> (match ins with IOpenCall _ => True | _ => at_ k ins end) /\ code_at L (S k) c.
Proof.
  intros L k ins c H. apply code_at_cons in H. destruct H as [H1 H2]. split; [|exact H2].
  specialize (H1 0 ins eq_refl). rewrite Nat.add_0_r in H1. destruct ins; auto.
Qed.
Ltac chd H A := apply code_at_hd in H; destruct H as [A H]; cbv iota in A.
Ltac capp H A := apply code_at_app in H; destruct H as [A H].
Lemma code_at_plain : forall L L' k c, no_open c -> code_at L k c -> code_at L' k c.
Proof. intros L L' k c Hn H t ins Ht. specialize (H t ins Ht). destruct ins; try exact H. elim (Hn name). eapply nth_error_In. exact Ht. Qed.

Definition env_ok (E : env) (L : string -> option nat) : Prop :=
  forall x l, L x = Some l -> exists F E' b fn, E = F :: E' /\ assoc F x = Some b /\ CG E b fn /\
    at_ (lbl_index P l) (ILabel l) /\ code_at L (S (lbl_index P l)) (fn ++ [IReturn]).

Definition conts (Q : outcome -> mstate -> Prop) (r : pres) (w : world) (x k : nat) (stk : list sentry) (base : list capture) (F : nat) : Prop :=
  match r with
  | RSucc j ts => forall cs F', flat cs = pr ts -> F <= F' -> XB x F' ->
      G Q k j w (fst (add_capt cs stk base)) (snd (add_capt cs stk base)) F'
  | RFail => forall F', F <= F' -> XB x F' -> FL Q w stk base F'
  | RAbort j => forall F', F <= F' -> XB x F' -> AB Q j w F'
  end.
Lemma conts_weaken : forall Q r w x x' k stk base F F', conts Q r w x k stk base F -> F <= F' -> x <= x' -> conts Q r w x' k stk base F'.
Proof.
  intros Q r w x x' k stk base F F' H HF Hx. destruct r; cbn [conts] in *; intros.
  - apply H; [lia|]. eapply XB_down; eassumption.
  - apply H; [assumption|lia|]. eapply XB_down; eassumption.
  - apply H; [lia|]. eapply XB_down; eassumption.
Qed.

Definition frag_at (n : nat) (E : env) (p : pattern) (c : program) : Prop :=
  forall L pre post k i0 w r w' x stk base Q F, c = pre ++ post -> forallb charlike pre = true -> matches s pre i0 -> px pre i0 <= S F ->
    code_at L k post -> env_ok E L -> i0 <= List.length s -> eval n E p i0 w = (Some r, w', x) -> ntop stk ->
    conts Q r w' x (k + List.length post) stk base F -> G Q k (i0 + wds pre) w stk base F.
(** the case in which nothing has been matched in advance *)
Definition frag0 (n : nat) (E : env) (p : pattern) (c : program) : Prop :=
  forall L k i0 w r w' x stk base Q F,
    code_at L k c -> env_ok E L -> i0 <= List.length s -> eval n E p i0 w = (Some r, w', x) -> ntop stk ->
    conts Q r w' x (k + List.length c) stk base F -> G Q k i0 w stk base F.
Lemma frag_0 : forall n E p c, frag_at n E p c -> frag0 n E p c.
Proof.
  intros n E p c H L k i0 w r w' x stk base Q F Hc He Hi Hev Hn Hk.
  specialize (H L [] c k i0 w r w' x stk base Q F eq_refl eq_refl I ltac:(simpl; lia) Hc He Hi Hev Hn Hk). rewrite wds_nil, Nat.add_0_r in H. exact H.
Qed.
Lemma frag_head : forall n E p ins c, charlike ins = false -> frag0 n E p (ins :: c) -> frag_at n E p (ins :: c).
Proof.
  intros n E p ins c Hi H L pre post k i0 w r w' x stk base Q F Hc Hp Hm Hx Hat He Hle Hev Hn Hk.
  destruct pre as [|i' pre].
  - simpl in Hc. subst post. rewrite wds_nil, Nat.add_0_r. eapply H; eassumption.
  - simpl in Hc. injection Hc as <- _. simpl in Hp. rewrite Hi in Hp. discriminate.
Qed.
Lemma frag_mono : forall n m E p c, frag_at n E p c -> m <= n -> frag_at m E p c.
Proof.
  intros n m E p c H Hm L pre post k i0 w r w' x stk base Q F Hc Hp Hmt Hx Hat He Hle Hev Hn Hk.
  eapply H; try eassumption. eapply evals_up; eassumption.
Qed.
Lemma frag_le : forall n E p E' p' c, (forall i w r w' x, i <= List.length s -> eval n E p i w = (Some r, w', x) -> exists x', x <= x' /\ eval n E' p' i w = (Some r, w', x')) ->
  (forall L, env_ok E L -> env_ok E' L) -> frag_at n E' p' c -> frag_at n E p c.
Proof.
  intros n E p E' p' c Hle Henv H L pre post k i0 w r w' x stk base Q F Hc Hp Hmt Hx Hat He Hi Hev Hn Hk.
  destruct (Hle _ _ _ _ _ Hi Hev) as (x' & Hx' & Hev'). eapply H; try eassumption; [apply Henv; exact He|].
  eapply conts_weaken; [exact Hk|lia|exact Hx'].
Qed.

Lemma run_chars : forall e L pre k i0 w stk base Q F, forallb charlike e = true -> code_at L k e -> matches s pre i0 -> px pre i0 <= S F ->
  (forall F', matches s (pre ++ e) i0 -> F <= F' -> px (pre ++ e) i0 <= S F' -> G Q (k + List.length e) (i0 + wds (pre ++ e)) w stk base F') ->
  (forall F' p1 ins rest, e = p1 ++ ins :: rest -> matches s (pre ++ p1) i0 -> nomatch s ins (i0 + wds (pre ++ p1)) -> F <= F' ->
     px ((pre ++ p1) ++ [ins]) i0 <= S F' -> FL Q w stk base F') ->
  G Q k (i0 + wds pre) w stk base F.
Proof.
  induction e as [|ins e IH]; intros L pre k i0 w stk base Q F Hc Hat Hm Hx Hs Hf.
  - specialize (Hs F). rewrite app_nil_r in Hs. cbn [List.length] in Hs. rewrite Nat.add_0_r in Hs. apply Hs; auto.
  - simpl in Hc. apply andb_true_iff in Hc. destruct Hc as [Hi Hc]. apply code_at_cons in Hat. destruct Hat as [Ha Hat].
    apply code_at_one in Ha; [|destruct ins; auto; discriminate].
    pose proof (fx_le bufsz Hbuf ins F (i0 + wds pre)) as HF. pose proof (fx_px bufsz Hbuf ins F (i0 + wds pre)) as HP.
    assert (HP' : px (pre ++ [ins]) i0 <= S (fx ins F (i0 + wds pre))) by (rewrite px_app; lia).
    eapply G_char; try eassumption.
    + intros Hmb.
      replace (i0 + wds pre + wd ins) with (i0 + wds (pre ++ [ins])) by (rewrite wds_app, wds_one; lia).
      eapply (IH L (pre ++ [ins])); try eassumption.
      * apply (proj2 (matches_app s pre [ins] i0)). split; [exact Hm|]. split; [exact Hmb|exact I].
      * intros F' H1 H2 H3. rewrite <- app_assoc in *. simpl in *. replace (S (k + List.length e)) with (k + S (List.length e)) by lia. apply Hs; auto; lia.
      * intros F' p1 ins' rest He H1 H2 H3 H4. specialize (Hf F' (ins :: p1) ins' rest).
        replace (pre ++ ins :: p1) with ((pre ++ [ins]) ++ p1) in Hf by (rewrite <- app_assoc; reflexivity). subst e. apply Hf; auto; lia.
    + intro Hno. apply (Hf _ [] ins e); rewrite ?app_nil_r; auto.
Qed.

Lemma pall : forall n E p c i w r w' x, eval n E p i w = (Some r, w', x) -> CG E p c -> forallb charlike c = true -> matches s c i ->
  r = RSucc (i + wds c) [] /\ w' = w /\ x <= px c i.
Proof. intros. eapply prefix_all; eassumption. Qed.
Lemma pno : forall n E p c i w r w' x pre ins rest, eval n E p i w = (Some r, w', x) -> CG E p c -> c = pre ++ ins :: rest ->
  forallb charlike pre = true -> charlike ins = true -> matches s pre i -> nomatch s ins (i + wds pre) ->
  r = RFail /\ w' = w /\ x <= px (pre ++ [ins]) i.
Proof. intros. eapply prefix_no; eassumption. Qed.

Lemma frag_chars : forall n E p c, CG E p c -> forallb charlike c = true -> frag_at n E p c.
Proof.
  intros n E p c HCG Hall L pre post k i0 w r w' x stk base Q F Hc Hp Hm Hx Hat He Hle Hev Hn Hk. subst c.
  rewrite forallb_app in Hall. apply andb_true_iff in Hall. destruct Hall as [_ Hpost].
  eapply (run_chars post); try eassumption.
  - intros F' H1 H2 H3. destruct (pall _ _ _ _ _ _ _ _ _ Hev HCG) as (-> & -> & Hxx); [rewrite forallb_app, Hp; exact Hpost|exact H1|].
    specialize (Hk [] F' eq_refl H2). rewrite add_nil in Hk. apply Hk. apply XB_le. lia.
  - intros F' p1 ins rest -> H1 H2 H3 H4. rewrite forallb_app in Hpost. simpl in Hpost. apply andb_true_iff in Hpost. destruct Hpost as [Hp1 Hi]. apply andb_true_iff in Hi. destruct Hi as [Hi _].
    destruct (pno _ _ _ _ _ _ _ _ _ (pre ++ p1) ins rest Hev HCG) as (-> & -> & Hxx); auto.
    { rewrite <- app_assoc. reflexivity. } { rewrite forallb_app, Hp. exact Hp1. }
    apply Hk; [exact H3|]. apply XB_le. lia.
Qed.

Lemma frag_seq : forall n E l r cl cr, CG E l cl -> frag_at n E l cl -> frag_at n E r cr -> frag_at n E (PSeq l r) (cl ++ cr).
Proof.
  intros n E l rr cl cr HCG Hl Hr L pre post k i0 w r w' x stk base Q F Hc Hp Hm Hx Hat He Hle Hev Hn Hk.
  rewrite eval_seq in Hev. destruct (eval n E l i0 w) as [[[o|] w1] x1] eqn:El; [|discriminate].
  apply app_split in Hc. destruct Hc as [(e & -> & Hcr)|(e & Hcl & ->)].
  - (* all of l already matched *)
    rewrite forallb_app in Hp. apply andb_true_iff in Hp. destruct Hp as [Hp1 Hp2]. apply matches_app in Hm. destruct Hm as [Hm1 Hm2].
    destruct (pall _ _ _ _ _ _ _ _ _ El HCG Hp1 Hm1) as (-> & -> & Hxx). cbn [ebind] in Hev.
    rewrite px_app in Hx.
    destruct (eval n E rr (i0 + wds cl) w) as [[[o2|] w2] x2] eqn:Er; [|discriminate].
    rewrite wds_app, Nat.add_assoc. eapply (Hr L e post); try eassumption; try lia.
    + apply matches_len; assumption.
    + assert (Hx1 : forall F', F <= F' -> XB x1 F') by (intros; apply XB_le; lia).
      destruct o2; injection Hev as <- <- <-; cbn [conts app] in *; intros; apply Hk; auto.
  - subst cl. apply code_at_app in Hat. destruct Hat as [Ha1 Ha2]. eapply (Hl L pre e); try eassumption; try reflexivity.
    rewrite app_length in Hk. destruct o; cbn [ebind] in Hev.
    + injection Hev as <- <- <-. exact Hk.
    + cbn [conts]. intros cs F' Hf HF Hx1. pose proof (eval_succ _ _ _ _ _ _ _ _ _ El Hle) as Hj.
      destruct (eval n E rr j w1) as [[[o2|] w2] x2] eqn:Er; [|discriminate].
      eapply (frag_0 _ _ _ _ Hr); try eassumption; try lia; [apply ntop_add; exact Hn|].
      rewrite <- Nat.add_assoc. destruct o2; injection Hev as <- <- <-; cbn [conts] in *; intros.
      * apply FL_add. apply Hk; [lia|]. eauto.
      * rewrite add_app. apply Hk; [rewrite flat_app, pr_app; congruence|lia|]. eauto.
      * apply Hk; [lia|]. eauto.
    + injection Hev as <- <- <-. exact Hk.
Qed.

Ltac go_head := apply frag_head; [reflexivity|]; intros L k i0 w r w' x stk base Q F Hat He Hle Hev Hn Hk.
Ltac norm := repeat (rewrite app_length in * || rewrite Nat.add_assoc in * || rewrite <- app_assoc in *); cbn [List.length app] in *.

(** label lookup *)
Lemma lbl_here : forall k l, at_ k (ILabel l) -> lbl_index P l = k.
Proof. intros. apply lbl_index_at; assumption. Qed.

Lemma frag_alt : forall n E l r cl cr L1 L2, frag_at n E l cl -> frag_at n E r cr ->
  frag_at n E (PAlt l r) (IChoice L1 :: cl ++ [ICommit L2; ILabel L1] ++ cr ++ [ILabel L2]).
Proof.
  intros n E l rr cl cr L1 L2 Hl Hr. apply frag_0 in Hl. apply frag_0 in Hr. go_head.
  chd Hat A1. capp Hat A2. cbn [app] in Hat. chd Hat A3. chd Hat A3'. capp Hat A4. chd Hat A5. clear Hat.
  pose proof (lbl_here _ _ A3') as I1. pose proof (lbl_here _ _ A5) as I2.
  replace (k + List.length (IChoice L1 :: cl ++ [ICommit L2; ILabel L1] ++ cr ++ [ILabel L2])) with (S (S (S (S k + List.length cl)) + List.length cr)) in Hk
    by (simpl; rewrite !app_length; simpl; rewrite app_length; simpl; lia).
  rewrite eval_alt in Hev. destruct (eval n E l i0 w) as [[[o|] w1] x1] eqn:El; [|discriminate].
  eapply G_choice; [exact A1|]. eapply Hl; try eassumption; [exact I|].
  destruct o; cbn [eorelse] in Hev.
  - destruct (eval n E rr i0 w1) as [[[o2|] w2] x2] eqn:Er; [|discriminate]. injection Hev as -> -> <-.
    cbn [conts]. intros F' HF Hx1. apply FL_btrack; [exact Hbuf|exact Hle|]. rewrite I1.
    eapply G_label; [exact A3'|].
    eapply Hr; try eassumption.
    destruct r; cbn [conts] in *; intros.
    + apply Hk; [lia|]. eauto.
    + eapply G_label; [exact A5|]. apply Hk; [assumption|lia|]. eauto.
    + apply Hk; [lia|]. eauto.
  - injection Hev as <- <- <-. cbn [conts] in *. intros cs F' Hf HF Hx. cbn [add_capt fst snd s_kind s_capt app].
    eapply G_commit; [exact A3|]. cbn [s_capt]. rewrite I2. eapply G_label; [exact A5|]. apply Hk; assumption.
  - injection Hev as <- <- <-. exact Hk.
Qed.

Lemma frag_alt_test : forall n E l r h cl g cr L1 L2 t, CG E l (h :: cl) -> CG E r (g :: cr) ->
    test_of h L1 = Some t -> is_test_head g = true -> (forall b, cmatch h b = true -> cmatch g b = false) ->
  frag_at n E l (h :: cl) -> frag_at n E r (g :: cr) ->
  frag_at n E (PAlt l r) (t :: cl ++ [IJump L2; ILabel L1] ++ (g :: cr) ++ [ILabel L2]).
Proof.
  intros n E l rr h cl g cr L1 L2 t Cl Cr Ht Hg Hdis Hl Hr. apply frag_0 in Hr.
  assert (Hch : charlike h = true) by (destruct h; try discriminate; reflexivity).
  assert (Hcg : charlike g = true) by (destruct g; try discriminate; reflexivity).
  apply frag_head; [destruct h; try discriminate; injection Ht as <-; reflexivity|]; intros L k i0 w r w' x stk base Q F Hat He Hle Hev Hn Hk.
  assert (Htn : match t with IOpenCall _ => False | _ => True end) by (destruct h; try discriminate; injection Ht as <-; exact I).
  pose proof (code_at_head _ _ _ _ Hat Htn) as A1. chd Hat A1'. capp Hat A2. cbn [app] in Hat. chd Hat A3. chd Hat A3'.
  change (g :: cr ++ [ILabel L2]) with ((g :: cr) ++ [ILabel L2]) in Hat. capp Hat A4. chd Hat A5. clear Hat A1'.
  pose proof (lbl_here _ _ A3') as I1. pose proof (lbl_here _ _ A5) as I2.
  replace (k + List.length (t :: cl ++ [IJump L2; ILabel L1] ++ (g :: cr) ++ [ILabel L2])) with (S (S (S (S k + List.length cl)) + S (List.length cr))) in Hk
    by (simpl; rewrite !app_length; simpl; rewrite app_length; simpl; lia).
  rewrite eval_alt in Hev. destruct (eval n E l i0 w) as [[[o|] w1] x1] eqn:El; [|discriminate].
  eapply G_test; [exact Hbuf|exact TI_mono|exact Ht|exact A1| |].
  - intros b Hb Hm. replace (S i0) with (i0 + wds [h]) by (destruct h; try discriminate; rewrite wds_one; cbn [wd]; lia).
    eapply (Hl L [h] cl); try eassumption; try reflexivity.
    { simpl. rewrite Hch. reflexivity. } { split; [|exact I]. destruct h; try discriminate; exists b; auto. } { destruct h; try discriminate; simpl; lia. }
    destruct o; cbn [eorelse] in Hev.
    + destruct (eval n E rr i0 w1) as [[[o2|] w2] x2] eqn:Er; [|discriminate]. injection Hev as -> -> <-.
      destruct (pno _ _ _ _ _ _ _ _ _ [] g cr Er Cr) as (-> & -> & Hxx); auto; [exact I|rewrite wds_nil, Nat.add_0_r; unfold nomatch; destruct g; try discriminate; rewrite Hb; auto|].
      cbn [conts] in *. intros F' HF Hx1. apply Hk; [lia|]. apply XB_max; [exact Hx1|]. apply XB_le. destruct g; simpl in Hxx; lia.
    + injection Hev as <- <- <-. cbn [conts] in *. intros cs F' Hf HF Hx.
      eapply G_jump; [exact A3|]. rewrite I2. eapply G_label; [exact A5|]. apply Hk; auto. lia.
    + injection Hev as <- <- <-. cbn [conts] in *. intros. apply Hk; auto. lia.
  - intro Hno. destruct (pno _ _ _ _ _ _ _ _ _ [] h cl El Cl) as (-> & -> & Hxx); auto; [exact I|rewrite wds_nil, Nat.add_0_r; exact Hno|].
    cbn [eorelse] in Hev. destruct (eval n E rr i0 w) as [[[o2|] w2] x2] eqn:Er; [|discriminate]. injection Hev as -> -> <-.
    rewrite I1. eapply G_label; [exact A3'|].
    assert (Hx1 : forall F', Nat.max F i0 <= F' -> XB x1 F') by (intros; apply XB_le; destruct h; simpl in Hxx; lia).
    eapply Hr; try eassumption. simpl List.length.
    destruct r; cbn [conts] in *; intros.
    + apply Hk; [lia|]. eauto.
    + eapply G_label; [exact A5|]. apply Hk; [assumption|lia|]. eauto.
    + apply Hk; [lia|]. eauto.
Qed.

Lemma span_end_more : forall m m' set i, List.length s - i < m -> List.length s - i < m' -> span_end s m set i = span_end s m' set i.
Proof.
  induction m as [|m IH]; intros [|m'] set i H1 H2; try lia. simpl.
  destruct (nth_error s i) eqn:En; [|reflexivity]. destruct (cs_has set b); [|reflexivity].
  assert (i < List.length s) by (apply nth_error_Some; congruence). apply IH; lia.
Qed.
Lemma star_class : forall n E set i w r w' x, eval n E (PStar (PClass set)) i w = (Some r, w', x) ->
  r = RSucc (span_end s (S (List.length s)) set i) [] /\ w' = w /\ x <= S (span_end s (S (List.length s)) set i).
Proof.
  induction n as [|n IH]; intros E set i w r w' x H; rewrite eval_star, eval_class in H; unfold class_eval in H;
    (assert (Hu : span_end s (S (List.length s)) set i = match nth_error s i with Some b => if cs_has set b then span_end s (List.length s) set (S i) else i | None => i end) by reflexivity; rewrite Hu; clear Hu).
  - destruct (nth_error s i) as [b|]; [destruct (cs_has set b)|]; cbn in H; try discriminate; injection H as <- <- <-; auto with arith.
  - destruct (nth_error s i) as [b|] eqn:En.
    + destruct (cs_has set b).
      * cbn [ebind] in H. destruct (eval n E (PStar (PClass set)) (S i) w) as [[[o|] w1] x1] eqn:Es; [|discriminate].
        destruct (IH _ _ _ _ _ _ _ Es) as (-> & -> & Hx). cbn [eorelse app] in H. assert (i < List.length s) by (apply nth_error_Some; congruence).
        pose proof (span_end_more (S (List.length s)) (List.length s) set (S i) ltac:(lia) ltac:(lia)) as Hsp. rewrite Hsp in *. injection H as <- <- <-.
        assert (Hge : forall m j, j <= span_end s m set j).
        { induction m as [|m IHm]; intro j; simpl; [lia|]. destruct (nth_error s j); [|lia]. destruct (cs_has set b0); [|lia]. specialize (IHm (S j)). lia. }
        specialize (Hge (List.length s) (S i)). split; [reflexivity|]. split; [reflexivity|]. lia.
      * cbn in H. injection H as <- <- <-. repeat split; lia.
    + cbn in H. injection H as <- <- <-. repeat split; lia.
Qed.

Lemma frag_star_span : forall n E q set, get q = PClass set -> frag_at n E (PStar q) [ISpan set].
Proof.
  intros n E q set Hg. go_head. rewrite <- (star_get _ _ _ n E q), Hg in Hev. apply star_class in Hev. destruct Hev as (-> & -> & Hx).
  apply code_at_one in Hat; [|exact I]. eapply G_span; [exact Hbuf|exact TI_mono|exact Hat|]. cbv zeta.
  set (j := span_end s (S (List.length s)) set i0) in *.
  specialize (Hk [] (Nat.max F j) eq_refl ltac:(lia)). rewrite add_nil in Hk. cbn [fst snd List.length] in Hk.
  rewrite Nat.add_1_r in Hk. apply Hk. apply XB_le. lia.
Qed.

Lemma frag_star : forall n E q sub L1 L2, frag_at n E q sub ->
  frag_at n E (PStar q) ([IChoice L2; ILabel L1] ++ sub ++ [IPartialCommit L1; ILabel L2]).
Proof.
  intros n E q sub L1 L2 Hq. cbn [app]. go_head.
  chd Hat A1. chd Hat A2. capp Hat A3. chd Hat A4. chd Hat A5. clear Hat.
  pose proof (lbl_here _ _ A2) as I1. pose proof (lbl_here _ _ A5) as I2.
  replace (k + List.length (IChoice L2 :: ILabel L1 :: sub ++ [IPartialCommit L1; ILabel L2])) with (S (S (S (S k) + List.length sub))) in Hk
    by (simpl; rewrite app_length; simpl; lia).
  eapply G_choice; [exact A1|]. rewrite I2.
  (* the loop *)
  assert (Hloop : forall m, m <= n -> forall i w r w' x stk base F, i <= List.length s -> ntop stk -> eval m E (PStar q) i w = (Some r, w', x) ->
    conts Q r w' x (S (S (S (S k) + List.length sub))) stk base F ->
    G Q (S k) i w (SE (KBtrack (S (S (S k) + List.length sub)) i) [] :: stk) base F).
  2: { eapply Hloop; try eassumption. lia. }
  clear Hk Hev Hle Hn r w' x stk base F i0 w.
  induction m as [m IH] using lt_wf_ind. intros Hmn i w r w' x stk base F Hi Hn Hev Hk.
  rewrite eval_star in Hev. destruct (eval m E q i w) as [[[o|] w1] x1] eqn:Eq; [|discriminate].
  eapply G_label; [exact A2|].
  eapply (frag_0 _ _ _ _ (frag_mono _ _ _ _ _ Hq Hmn)); try eassumption; [exact I|].
  destruct o; cbn [ebind eorelse] in Hev.
  - injection Hev as <- <- <-. cbn [conts] in *. intros F' HF Hx1. apply FL_btrack; [exact Hbuf|exact Hi|].
    eapply G_label; [exact A5|]. specialize (Hk [] F' eq_refl HF). rewrite add_nil in Hk. apply Hk. apply XB_max; [exact Hx1|]. apply XB_le. lia.
  - destruct m as [|m]; [discriminate|]. destruct (eval m E (PStar q) j w1) as [[[o2|] w2] x2] eqn:Es; [|discriminate].
    pose proof (eval_succ _ _ _ _ _ _ _ _ _ Eq Hi) as Hj.
    cbn [conts]. intros cs F' Hf HF Hx1. cbn [add_capt fst snd s_kind s_capt app].
    eapply G_partial; [exact A4|]. rewrite I1.
    eapply (IH m ltac:(lia) ltac:(lia)); try eassumption; [lia|apply ntop_add; exact Hn|].
    destruct o2; cbn [eorelse] in Hev.
    + elim (star_not_fail _ _ _ _ _ _ _ _ _ _ Es).
    + injection Hev as <- <- <-. cbn [conts] in *. intros cs' F'' Hf' HF' Hx2. rewrite add_app.
      apply Hk; [rewrite flat_app, pr_app; congruence|lia|]. eauto.
    + injection Hev as <- <- <-. cbn [conts] in *. intros. apply Hk; [lia|]. eauto.
  - injection Hev as <- <- <-. exact Hk.
Qed.

Lemma frag_star_tree : forall n E q q' id sub L1 L2 L3 L4 m, get q = PMemo q' id -> TOK m E q' -> frag_at n E q' sub ->
  frag_at n E (PStar q) ([ILabel L1; IMemoTreeOpen L3 m; IChoice L2] ++ sub ++
                    [ICommit L4; ILabel L4; IMemoTreeInsert; ILabel L3; IMemoTree; IJump L1;
                     ILabel L2; IMemoTreeClose m]).
Proof.
  intros n E q q' id sub L1 L2 L3 L4 m Hg Htok Hq. cbn [app]. go_head.
  chd Hat A1. chd Hat A2. chd Hat A3. capp Hat A4.
  chd Hat B1. chd Hat B2. chd Hat B3. chd Hat B4. chd Hat B5. chd Hat B6. chd Hat B7. chd Hat B8. clear Hat.
  pose proof (lbl_here _ _ A1) as I1. pose proof (lbl_here _ _ B7) as I2. pose proof (lbl_here _ _ B4) as I3. pose proof (lbl_here _ _ B2) as I4.
  set (e := S (S (S k)) + List.length sub) in *.
  assert (Hlen : k + List.length (ILabel L1 :: IMemoTreeOpen L3 m :: IChoice L2 :: sub ++
                    [ICommit L4; ILabel L4; IMemoTreeInsert; ILabel L3; IMemoTree; IJump L1; ILabel L2; IMemoTreeClose m]) = S (S (S (S (S (S (S (S e))))))))
    by (simpl; rewrite app_length; simpl; unfold e; lia).
  rewrite Hlen in Hk. clear Hlen.
  assert (Hev' : eval n E (PStar q') i0 w = (Some r, w', x)).
  { rewrite <- Hev. rewrite <- (star_get _ _ _ n E q), Hg. clear. revert i0 w. induction n as [|n IH]; intros; rewrite !eval_star, eval_memo; [reflexivity|].
    apply eorelse_cong; [|auto]. apply ebind_cong; [reflexivity|]. intros. apply IH. }
  clear Hev. rename Hev' into Hev.
  (* the loop *)
  assert (Hloop : forall l, l <= n -> forall i w1 r' x' tr ts x0 F', i <= List.length s -> F <= F' ->
    eval l E (PStar q') i w1 = (Some r', w', x') -> chain E q' m i0 w tr i w1 ts x0 -> XB x0 F' -> x = Nat.max x0 x' ->
    match r' with RSucc j us => r = RSucc j (ts ++ us) | RAbort j => r = RAbort j | RFail => False end ->
    G Q k i w1 (tr ++ stk) base F').
  2: { change stk with ([] ++ stk). eapply (Hloop n (le_n n) i0 w r x [] [] 0); try eassumption; try lia; [apply ch_nil|apply XB_le; lia|].
       destruct r; try reflexivity. elim (star_not_fail _ _ _ _ _ _ _ _ _ _ Hev). }
  induction l as [l IH] using lt_wf_ind. intros Hln i w1 r' x' tr ts x0 F' Hi HF' Hev' Hch Hx0 Hxx Hr.
  eapply G_label; [exact A1|]. eapply G_treeopen; [exact A2|]. intros tbl Ht.
  (* what happens after one more entry has been pushed *)
  assert (Hmore : forall j w2 us y cs cnt F'', reps1 E q' i w1 j w2 us y -> flat cs = pr us -> F' <= F'' -> XB y F'' ->
     G Q (S (S (S e))) j w2 (SE (KTree m i cnt) cs :: tr ++ stk) base F'').
  { intros j w2 us y cs cnt F'' Hreps Hf HF'' Hy. eapply G_label; [exact B4|].
    change (SE (KTree m i cnt) cs :: tr ++ stk) with ((SE (KTree m i cnt) cs :: tr) ++ stk).
    assert (Hch' : chain E q' m i0 w (SE (KTree m i cnt) cs :: tr) j w2 (ts ++ us) (Nat.max x0 y)) by (econstructor; eassumption).
    assert (Hxy : XB (Nat.max x0 y) F'') by eauto.
    eapply G_tree; try eassumption; [simpl; lia|]. intros tr' Hch''.
    eapply G_jump; [exact B6|]. rewrite I1.
    destruct (star_reps _ _ _ _ _ _ _ _ Hreps _ _ _ _ Hev') as (n' & r2 & x2 & Hn' & Hev2 & Hx2 & Hr2).
    eapply (IH n'); try eassumption; try lia.
    - eapply reps1_range; eassumption.
    - destruct r2; [contradiction| |]; subst r'; rewrite Hr, ?app_assoc; reflexivity. }
  split; [apply H_sync; assumption|]. destruct (fst (t_get ops tbl m i)) as [ent|] eqn:Eg.
  - destruct (H_tget _ _ _ _ _ _ w1 _ Ht Htok Hi Eg) as (len & us & y & H1 & H2 & H3 & H4). destruct ent as [ml cnt cs]. cbn [me_len me_capt] in *. subst ml.
    pose proof (reps1_range _ _ _ _ _ _ _ _ H2 Hi) as Hj. split; [lia|]. rewrite I3. eapply Hmore; try eassumption; [lia|]. eapply XB_mono; [exact H3|lia].
  - eapply G_choice; [exact A3|]. rewrite I2.
    pose proof Hev' as Hev''. rewrite eval_star in Hev''. destruct (eval l E q' i w1) as [[[o|] w2] x2] eqn:Eq; [|discriminate].
    eapply (frag_0 _ _ _ _ (frag_mono _ _ _ _ _ Hq Hln)); try eassumption; [exact I|].
    destruct o; cbn [ebind eorelse] in Hev''.
    + injection Hev'' as <- <- <-. cbn [conts]. intros F'' HF'' Hx2. apply FL_btrack; [exact Hbuf|exact Hi|].
      eapply G_label; [exact B7|]. change (SE (KTree m i 0) [] :: tr ++ stk) with ((SE (KTree m i 0) [] :: tr) ++ stk).
      eapply G_treeclose; [exact B8| |exact Hn|]. { constructor; [reflexivity|]. eapply chain_trees; eassumption. }
      subst r. rewrite tcapts_cons. cbn [s_capt]. rewrite app_nil_r in *. cbn [conts] in Hk.
      apply Hk; [rewrite (chain_flat _ _ _ _ _ _ _ _ _ _ Hch); reflexivity|lia|].
      subst x. apply XB_max; [eapply XB_mono; [exact Hx0|lia]|]. apply XB_max; [exact Hx2|]. apply XB_le. lia.
    + cbn [conts]. intros cs F'' Hf HF'' Hx2. cbn [add_capt fst snd s_kind s_capt app].
      eapply G_commit; [exact B1|]. cbn [s_capt add_capt fst snd s_kind app]. rewrite I4. eapply G_label; [exact B2|].
      pose proof (r1_one _ _ _ _ _ _ _ _ _ Eq) as Hr1.
      eapply G_treeinsert; [exact B3| |].
      * intros tbl' Ht'. eapply H_tput; try eassumption.
      * eapply Hmore; eassumption.
    + injection Hev'' as <- <- <-. subst r. cbn [conts] in *. intros. apply Hk; [lia|]. subst x. eauto.
Qed.

Lemma frag_ext : forall n E p p' c, (forall i w, eval n E p i w = eval n E p' i w) -> frag_at n E p' c -> frag_at n E p c.
Proof.
  intros n E p p' c Heq H. eapply frag_le; [|intros L HL; exact HL|exact H]. intros i w r w' x _ He. exists x. rewrite <- Heq. auto.
Qed.
Lemma frag_plus : forall n E q cq cs, CG E q cq -> frag_at n E q cq -> frag_at n E (PStar (get q)) cs -> frag_at n E (PPlus q) (cq ++ cs).
Proof.
  intros n E q cq cs HC H1 H2. eapply frag_ext with (p' := PSeq q (PStar (get q))).
  - intros. rewrite eval_plus, !eval_seq. apply ebind_cong; [reflexivity|]. intros. symmetry. apply star_get.
  - apply frag_seq; assumption.
Qed.
Lemma frag_opt_test : forall n E q h L1 t, test_of h L1 = Some t -> (forall b, h = IChar b -> get q = PLit [b]) -> (forall set, h = ISet set -> get q = PClass set) ->
  frag_at n E (POpt q) [t; ILabel L1].
Proof.
  intros n E q h L1 t Ht Hc1 Hc2.
  apply frag_head; [destruct h; try discriminate; injection Ht as <-; reflexivity|]; intros L k i0 w r w' x stk base Q F Hat He Hle Hev Hn Hk.
  assert (A1 : at_ k t) by (eapply code_at_head; [exact Hat|destruct h; try discriminate; injection Ht as <-; exact I]).
  chd Hat A1'. chd Hat A2. clear Hat A1'. pose proof (lbl_here _ _ A2) as I2.
  rewrite eval_opt, eval_alt, <- (get_ok s CS check q) in Hev.
  eapply G_test; [exact Hbuf|exact TI_mono|exact Ht|exact A1| |].
  - intros b Hb Hm. assert (Hr : exists y, y <= S i0 /\ eval n E (get q) i0 w = (Some (RSucc (S i0) []), w, y)).
    { destruct h; try discriminate.
      - rewrite (Hc1 _ eq_refl), eval_lit. cbn [lit_eval]. rewrite Hb. simpl in Hm. rewrite Hm. cbn. eexists. split; [|reflexivity]. lia.
      - rewrite (Hc2 _ eq_refl), eval_class. unfold class_eval. rewrite Hb. simpl in Hm. rewrite Hm. eexists. split; [|reflexivity]. lia. }
    destruct Hr as (y & Hy & Hr). rewrite Hr in Hev. cbn [eorelse] in Hev. injection Hev as <- <- <-.
    eapply G_label; [exact A2|]. cbn [List.length] in Hk. replace (k + 2) with (S (S k)) in Hk by lia.
    specialize (Hk [] (Nat.max F i0) eq_refl ltac:(lia)). rewrite add_nil in Hk. apply Hk. apply XB_le. lia.
  - intro Hno. assert (Hr : exists y, y <= S i0 /\ eval n E (get q) i0 w = (Some RFail, w, y)).
    { unfold nomatch in Hno. destruct h; try discriminate.
      - rewrite (Hc1 _ eq_refl), eval_lit. cbn [lit_eval]. destruct (nth_error s i0) as [b'|]; [simpl in Hno; rewrite Hno|]; eexists; (split; [|reflexivity]); lia.
      - rewrite (Hc2 _ eq_refl), eval_class. unfold class_eval. destruct (nth_error s i0) as [b'|]; [simpl in Hno; rewrite Hno|]; eexists; (split; [|reflexivity]); lia. }
    destruct Hr as (y & Hy & Hr). rewrite Hr in Hev. cbn [eorelse] in Hev. rewrite eval_empty in Hev. injection Hev as <- <- <-.
    rewrite I2. eapply G_label; [exact A2|]. cbn [List.length] in Hk. replace (k + 2) with (S (S k)) in Hk by lia.
    specialize (Hk [] (Nat.max F i0) eq_refl ltac:(lia)). rewrite add_nil in Hk. apply Hk. apply XB_max; apply XB_le; lia.
Qed.

Lemma frag_not : forall n E q sub L1, frag_at n E q sub -> frag_at n E (PNot q) ([IChoice L1] ++ sub ++ [IFailTwice; ILabel L1]).
Proof.
  intros n E q sub L1 Hq. apply frag_0 in Hq. cbn [app]. go_head. chd Hat A1. capp Hat A2. chd Hat A3. chd Hat A4. clear Hat.
  pose proof (lbl_here _ _ A4) as I1.
  replace (k + List.length (IChoice L1 :: sub ++ [IFailTwice; ILabel L1])) with (S (S (S k + List.length sub))) in Hk by (simpl; rewrite app_length; simpl; lia).
  rewrite eval_not in Hev. destruct (eval n E q i0 w) as [[[o|] w1] x1] eqn:El; [|discriminate].
  eapply G_choice; [exact A1|]. eapply Hq; try eassumption; [exact I|]. rewrite I1.
  destruct o; cbn [enot] in Hev; injection Hev as <- <- <-; cbn [conts] in *.
  - intros F' HF Hx. apply FL_btrack; [exact Hbuf|exact Hle|]. eapply G_label; [exact A4|]. specialize (Hk [] F' eq_refl HF Hx). rewrite add_nil in Hk. exact Hk.
  - intros cs F' Hf HF Hx. cbn [add_capt fst snd s_kind s_capt app]. eapply G_failtwice; [exact A3|]. apply Hk; assumption.
  - exact Hk.
Qed.
Lemma frag_and : forall n E q sub L1 L2, frag_at n E q sub -> frag_at n E (PAnd q) ([IChoice L1] ++ sub ++ [IBackCommit L2; ILabel L1; IFail; ILabel L2]).
Proof.
  intros n E q sub L1 L2 Hq. apply frag_0 in Hq. cbn [app]. go_head. chd Hat A1. capp Hat A2. chd Hat A3. chd Hat A4. chd Hat A5. chd Hat A6. clear Hat.
  pose proof (lbl_here _ _ A4) as I1. pose proof (lbl_here _ _ A6) as I2.
  replace (k + List.length (IChoice L1 :: sub ++ [IBackCommit L2; ILabel L1; IFail; ILabel L2])) with (S (S (S (S (S k + List.length sub))))) in Hk by (simpl; rewrite app_length; simpl; lia).
  rewrite eval_and in Hev. destruct (eval n E q i0 w) as [[[o|] w1] x1] eqn:El; [|discriminate].
  eapply G_choice; [exact A1|]. eapply Hq; try eassumption; [exact I|]. rewrite I1.
  destruct o; cbn [emap] in Hev; injection Hev as <- <- <-; cbn [conts] in *.
  - intros F' HF Hx. apply FL_btrack; [exact Hbuf|exact Hle|]. eapply G_label; [exact A4|]. eapply G_fail; [exact A5|]. apply Hk; assumption.
  - intros cs F' Hf HF Hx. cbn [add_capt fst snd s_kind s_capt app]. eapply G_backcommit; [exact Hbuf|exact A3|exact Hle|].
    rewrite I2. eapply G_label; [exact A6|]. apply Hk; assumption.
  - exact Hk.
Qed.
Lemma frag_cap : forall n E q id sub, frag_at n E q sub -> frag_at n E (PCap q id) (ICaptureBegin id :: sub ++ [ICaptureEnd]).
Proof.
  intros n E q id sub Hq. apply frag_0 in Hq. go_head. chd Hat A1. capp Hat A2. chd Hat A3. clear Hat.
  replace (k + List.length (ICaptureBegin id :: sub ++ [ICaptureEnd])) with (S (S k + List.length sub)) in Hk by (simpl; rewrite app_length; simpl; lia).
  rewrite eval_cap in Hev. destruct (eval n E q i0 w) as [[[o|] w1] x1] eqn:El; [|discriminate].
  eapply G_capbegin; [exact A1|]. eapply Hq; try eassumption; [exact I|].
  destruct o; cbn [emap] in Hev; injection Hev as <- <- <-; cbn [conts] in *.
  - intros F' HF Hx. apply FL_skip; [exact I|]. apply Hk; assumption.
  - intros cs F' Hf HF Hx. cbn [add_capt fst snd s_kind s_capt app]. eapply G_capend; [exact A3|]. cbv zeta.
    pose proof (eval_succ _ _ _ _ _ _ _ _ _ El Hle). apply Hk; auto. apply node_flat; [lia|exact Hf].
  - exact Hk.
Qed.
Lemma len_byte : forall n, n < 256 -> N.to_nat (bN (N2b (N.of_nat n))) = n.
Proof. intros n H. rewrite bN_N2b by lia. apply Nat2N.id. Qed.
Lemma split_at : forall (sub : program) ins tail pre post, sub ++ ins :: tail = pre ++ post -> forallb charlike pre = true -> charlike ins = false ->
  exists e, sub = pre ++ e /\ post = e ++ ins :: tail.
Proof.
  intros sub ins tail pre post H Hp Hi. apply app_split in H. destruct H as [(e & -> & H)|(e & -> & H)]; [|exists e; auto].
  destruct e as [|i' e].
  - exists []. rewrite !app_nil_r. simpl in H. subst. auto.
  - simpl in H. injection H as <- _. rewrite forallb_app in Hp. simpl in Hp. rewrite Hi, andb_false_r in Hp. discriminate.
Qed.
Lemma frag_cap_full : forall n E q id sub, CG E q sub -> forallb charlike sub = true -> wds sub < 256 ->
  frag_at n E (PCap q id) (sub ++ [ICaptureFull (N2b (N.of_nat (wds sub))) id]).
Proof.
  intros n E q id sub HC Hall Hlen L pre post k i0 w r w' x stk base Q F Hc Hp Hm Hx Hat He Hle Hev Hn Hk.
  apply split_at in Hc; [|exact Hp|reflexivity]. destruct Hc as (e & -> & ->).
  capp Hat A1. chd Hat A2. clear Hat. rewrite eval_cap in Hev. destruct (eval n E q i0 w) as [[[o|] w1] x1] eqn:El; [|discriminate].
  pose proof Hall as Hall'. rewrite forallb_app in Hall'. apply andb_true_iff in Hall'. destruct Hall' as [_ Hae].
  eapply (run_chars e); try eassumption.
  - intros F' H1 H2 H3. destruct (pall _ _ _ _ _ _ _ _ _ El HC Hall H1) as (-> & -> & Hxx). cbn [emap] in Hev. injection Hev as <- <- <-.
    eapply G_capfull; [exact A2|]. cbv zeta. rewrite len_byte by exact Hlen.
    replace (i0 + wds (pre ++ e) - wds (pre ++ e)) with i0 by lia.
    replace (k + List.length (e ++ [ICaptureFull (N2b (N.of_nat (wds (pre ++ e)))) id])) with (S (k + List.length e)) in Hk by (rewrite app_length; simpl; lia).
    apply Hk; [apply node_flat; [lia|reflexivity]|exact H2|]. apply XB_le. lia.
  - intros F' p1 ins rest -> H1 H2 H3 H4. rewrite forallb_app in Hae. simpl in Hae. apply andb_true_iff in Hae. destruct Hae as [Hp1 Hi]. apply andb_true_iff in Hi. destruct Hi as [Hi _].
    destruct (pno _ _ _ _ _ _ _ _ _ (pre ++ p1) ins rest El HC) as (-> & -> & Hxx); auto.
    { rewrite <- app_assoc. reflexivity. } { rewrite forallb_app, Hp. exact Hp1. }
    cbn [emap] in Hev. injection Hev as <- <- <-. apply Hk; [exact H3|]. apply XB_le. lia.
Qed.
Lemma frag_cap_late : forall n E q id pre0 post0, CG E q (pre0 ++ post0) -> forallb charlike pre0 = true -> wds pre0 < 256 ->
  frag_at n E q (pre0 ++ post0) ->
  frag_at n E (PCap q id) (pre0 ++ [ICaptureLate (N2b (N.of_nat (wds pre0))) id] ++ post0 ++ [ICaptureEnd]).
Proof.
  intros n E q id pre0 post0 HC Hall Hlen Hq L pre post k i0 w r w' x stk base Q F Hc Hp Hm Hx Hat He Hle Hev Hn Hk.
  cbn [app] in Hc. apply split_at in Hc; [|exact Hp|reflexivity]. destruct Hc as (e & -> & ->).
  capp Hat A1. chd Hat A2. capp Hat A3. chd Hat A4. clear Hat. rewrite eval_cap in Hev. destruct (eval n E q i0 w) as [[[o|] w1] x1] eqn:El; [|discriminate].
  pose proof Hall as Hall'. rewrite forallb_app in Hall'. apply andb_true_iff in Hall'. destruct Hall' as [_ Hae].
  match type of Hk with context [k + ?l] => replace (k + l) with (S (S (k + List.length e) + List.length post0)) in Hk by (repeat (rewrite app_length; simpl); lia) end.
  eapply (run_chars e); try eassumption.
  - intros F' H1 H2 H3. eapply G_caplate; [exact A2|]. rewrite len_byte by exact Hlen.
    replace (i0 + wds (pre ++ e) - wds (pre ++ e)) with i0 by lia.
    eapply (Hq L (pre ++ e) post0); try eassumption; try reflexivity.
    destruct o; cbn [emap] in Hev; injection Hev as <- <- <-; cbn [conts] in *.
    + intros F'' HF Hxx. apply FL_skip; [exact I|]. apply Hk; [lia|assumption].
    + intros cs F'' Hf HF Hxx. cbn [add_capt fst snd s_kind s_capt app]. eapply G_capend; [exact A4|]. cbv zeta.
      pose proof (eval_succ _ _ _ _ _ _ _ _ _ El Hle). apply Hk; auto; [apply node_flat; [lia|exact Hf]|lia].
    + intros. apply Hk; [lia|assumption].
  - intros F' p1 ins rest -> H1 H2 H3 H4. rewrite forallb_app in Hae. simpl in Hae. apply andb_true_iff in Hae. destruct Hae as [Hp1 Hi]. apply andb_true_iff in Hi. destruct Hi as [Hi _].
    destruct (pno _ _ _ _ _ _ _ _ _ (pre ++ p1) ins (rest ++ post0) El HC) as (-> & -> & Hxx); auto.
    { rewrite <- !app_assoc. reflexivity. } { rewrite forallb_app, Hp. exact Hp1. }
    cbn [emap] in Hev. injection Hev as <- <- <-. apply Hk; [exact H3|]. apply XB_le. lia.
Qed.

Lemma frag_memo : forall n E q id sub L1, MOK id E q -> frag_at n E q sub -> frag_at n E (PMemo q id) ([IMemoOpen L1 id] ++ sub ++ [IMemoClose; ILabel L1]).
Proof.
  intros n E q id sub L1 Hok Hq. apply frag_0 in Hq. cbn [app]. go_head. chd Hat A1. capp Hat A2. chd Hat A3. chd Hat A4. clear Hat.
  pose proof (lbl_here _ _ A4) as I1.
  replace (k + List.length (IMemoOpen L1 id :: sub ++ [IMemoClose; ILabel L1])) with (S (S (S k + List.length sub))) in Hk by (simpl; rewrite app_length; simpl; lia).
  rewrite eval_memo in Hev. eapply G_memoopen; [exact Hbuf|exact A1|]. intros tbl Ht. rewrite I1.
  split; [apply H_sync; assumption|]. destruct (fst (t_get ops tbl id i0)) as [ent|] eqn:Eg.
  - destruct (H_get _ _ _ _ _ _ w _ Ht Hok Hle Eg) as (n' & r' & x' & H1 & H2 & H3).
    pose proof Hev as Hev'. up1 H1 n n'. up1 Hev' n n'. rewrite H1 in Hev'. injection Hev' as -> <- ->.
    destruct ent as [[len|] cnt cs]; cbn [me_len me_capt] in *.
    + destruct H3 as (ts & -> & H3). pose proof (eval_succ _ _ _ _ _ _ _ _ _ Hev Hle). split; [lia|].
      eapply G_label; [exact A4|]. apply Hk; auto.
    + subst r. apply Hk; auto.
  - eapply Hq; try eassumption; [exact I|]. destruct r; cbn [conts] in *.
    + intros F' HF Hx. apply FL_memo; [|apply Hk; assumption]. intros tbl' pos Ht'. eapply H_put_fail; eassumption.
    + intros cs F' Hf HF Hx. cbn [add_capt fst snd s_kind s_capt app]. eapply G_memoclose; [exact A3| |].
      * intros tbl' Ht'. eapply H_put_ok; eassumption.
      * eapply G_label; [exact A4|]. apply Hk; assumption.
    + exact Hk.
Qed.

Lemma frag_check : forall n E q ck id flag sub L1, frag_at n E q sub ->
  frag_at n E (PCheck q ck id flag) ([ICheckBegin id flag] ++ sub ++ [ICheckEnd ck; ILabel L1]).
Proof.
  intros n E q ck id flag sub L1 Hq. apply frag_0 in Hq. cbn [app]. go_head. chd Hat A1. capp Hat A2. chd Hat A3. chd Hat A4. clear Hat.
  replace (k + List.length (ICheckBegin id flag :: sub ++ [ICheckEnd ck; ILabel L1])) with (S (S (S k + List.length sub))) in Hk by (simpl; rewrite app_length; simpl; lia).
  rewrite eval_check in Hev. destruct (eval n E q i0 w) as [[[o|] w1] x1] eqn:El; [|destruct w1; discriminate].
  eapply G_checkbegin; [exact A1|]. eapply Hq; try eassumption; [exact I|].
  destruct o; cbn [echeck] in Hev; destruct w1 as [e1 c1].
  - injection Hev as <- <- <-. cbn [conts] in *. intros F' HF Hx. apply FL_skip; [exact I|]. apply Hk; assumption.
  - cbn [conts]. intros cs F' Hf HF Hx. cbn [add_capt fst snd s_kind s_capt app]. eapply G_checkend; [exact Hbuf|exact A3|]. cbn [fst snd].
    pose proof (eval_succ _ _ _ _ _ _ _ _ _ El Hle) as Hj.
    destruct (check ck c1 (firstn (j - i0) (skipn i0 s)) s j id flag) as [c' [m|]] eqn:Ec; injection Hev as <- <- <-.
    + pose proof (Hcheck _ _ _ _ _ _ _ _ Ec) as Hm. split; [lia|]. eapply G_label; [exact A4|]. cbn [conts] in Hk. apply Hk; assumption.
    + apply FL_add. apply Hk; assumption.
  - injection Hev as <- <- <-. exact Hk.
Qed.

Lemma frag_emptyop : forall n E op, frag_at n E (PEmptyOp op) [IEmpty op].
Proof.
  intros n E op. go_head. chd Hat A1. clear Hat. rewrite eval_emptyop in Hev. injection Hev as <- <- <-.
  eapply G_emptyop; [exact Hbuf|exact TI_mono|exact A1|]. rewrite empty_ctx.
  destruct (empty_op_holds s i0 op); cbn [negb conts List.length] in *.
  - rewrite Nat.add_1_r in Hk. specialize (Hk [] (Nat.max F i0) eq_refl ltac:(lia)). rewrite add_nil in Hk. apply Hk. apply XB_le. lia.
  - apply Hk; [lia|]. apply XB_le. lia.
Qed.

Lemma frag_err_none : forall n E m, frag_at n E (PError m None) [IError m; IEnd true].
Proof.
  intros n E m. go_head. chd Hat A1. chd Hat A2. clear Hat. rewrite eval_error_none in Hev. injection Hev as <- <- <-.
  eapply G_error; [exact A1|]. eapply G_end; [exact A2|]. apply Hk; [lia|]. apply XB_le. lia.
Qed.
Lemma frag_err : forall n E m q c, frag_at n E q c -> frag_at n E (PError m (Some q)) (IError m :: c).
Proof.
  intros n E m q c Hq. apply frag_0 in Hq. go_head. chd Hat A1. rewrite eval_error in Hev.
  eapply G_error; [exact A1|]. eapply Hq; try eassumption. cbn [List.length] in Hk. replace (k + S (List.length c)) with (S k + List.length c) in Hk by lia. exact Hk.
Qed.

(** a call of a nonterminal *)
Lemma frag_call : forall n E x L k i0 w b r w' y stk base Q F, (forall c, CG E b c -> frag_at n E b c) ->
  code_at L k [IOpenCall x] -> env_ok E L -> (forall Fr E', E = Fr :: E' -> assoc Fr x = Some b) -> i0 <= List.length s ->
  eval n E b i0 w = (Some r, w', y) -> ntop stk -> conts Q r w' y (S k) stk base F -> G Q k i0 w stk base F.
Proof.
  intros n E x L k i0 w b r w' y stk base Q F Hfrag Hat He Hb Hle Hev Hn Hk.
  specialize (Hat 0 _ eq_refl). cbv iota beta in Hat. rewrite Nat.add_0_r in Hat. destruct Hat as (l & HL & Hat).
  destruct (He _ _ HL) as (Fr & E' & b' & fn & HE & Hb' & HC & Hlbl & Hcode). rewrite (Hb _ _ HE) in Hb'. injection Hb' as <-.
  pose proof (frag_0 _ _ _ _ (Hfrag _ HC)) as Hq. capp Hcode B1. chd Hcode B2. clear Hcode.
  destruct Hat as [Hat|[Hat Ht]].
  - eapply G_call; [exact Hat|]. eapply G_label; [exact Hlbl|]. eapply Hq; try eassumption; [exact I|].
    destruct r; cbn [conts] in *.
    + intros F' HF Hx. apply FL_skip; [exact I|]. apply Hk; assumption.
    + intros cs F' Hf HF Hx. cbn [add_capt fst snd s_kind s_capt app]. eapply G_ret; [exact B2|]. apply Hk; assumption.
    + exact Hk.
  - eapply G_jump; [exact Hat|]. eapply G_label; [exact Hlbl|]. eapply Hq; try eassumption.
    destruct r; cbn [conts] in *; try exact Hk. intros cs F' Hf HF Hx. eapply G_tail; [exact Hbuf|exact X_inv|exact Ht|exact B2|]. apply Hk; assumption.
Qed.
Lemma frag_nt : forall n E x, (forall m E' b c, m < n -> lookup E x = Some (b, E') -> CG E' b c -> frag_at m E' b c) -> frag_at n E (PNonTerm x None) [IOpenCall x].
Proof.
  intros n E nm IH. go_head. rewrite eval_nt in Hev. destruct n as [|n]; [discriminate|].
  pose proof Hat as Hat'. specialize (Hat' 0 _ eq_refl). cbv iota beta in Hat'. destruct Hat' as (l & HL & _).
  destruct (He _ _ HL) as (Fr & E' & b' & fn & HE & Hb' & _). subst E. cbn [lookup] in Hev. rewrite Hb' in Hev.
  cbn [List.length] in Hk. rewrite Nat.add_1_r in Hk.
  eapply (frag_call n); try eassumption. { intros. apply IH; [lia| |assumption]. cbn [lookup]. rewrite Hb'. reflexivity. } intros Fr' E'' HE. injection HE as <- <-. exact Hb'.
Qed.

Lemma le_some : forall (a b : res CS) r w x, le_res a b -> a = (Some r, w, x) -> b = (Some r, w, x).
Proof. intros a b r w x H ->. symmetry. apply H. discriminate. Qed.
Lemma frag_leaf : forall n E defs st b c, sdok defs -> assoc (inline_all thr defs) st = Some b -> frag_at n (inline_all thr defs :: E) b c -> no_open c ->
  frag_at n E (PGrammar defs st) c.
Proof.
  intros n E defs st b c Hd Hb Hq Hno L pre post k i0 w r w' x stk base Q F Hc Hp Hm Hx Hat He Hle Hev Hn Hk.
  eapply le_some in Hev; [|apply leaf_grammar_le; eassumption]. destruct n as [|n]; [discriminate|].
  eapply (frag_mono (S n) n _ _ _ Hq ltac:(lia) (fun _ => None)); try eassumption.
  - eapply code_at_plain; [|exact Hat]. intros y Hy. apply (Hno y). subst c. apply in_or_app. right. exact Hy.
  - intros y l H. discriminate.
Qed.

Lemma blocks_at : forall L blocks k b, code_at L k (List.concat (map blk blocks)) -> In b blocks ->
  exists o, at_ o (ILabel (b_lbl b)) /\ code_at L (S o) (b_code b ++ [IReturn]).
Proof.
  induction blocks as [|b0 blocks IH]; intros k b H Hi; [destruct Hi|destruct Hi as [<-|Hin]]; cbn [map List.concat] in H; capp H A.
  - exists k. unfold blk in A. chd A A1. split; assumption.
  - eapply IH; eassumption.
Qed.
Lemma assoc_lbls : forall blocks x l, assoc (blk_lbls blocks) x = Some l -> exists b, In b blocks /\ b_name b = x /\ b_lbl b = l.
Proof.
  induction blocks as [|b blocks IH]; simpl; intros x l H; [discriminate|].
  destruct (String.eqb (b_name b) x) eqn:Ee.
  - injection H as <-. apply String.eqb_eq in Ee. exists b. auto.
  - apply IH in H. destruct H as (b' & H1 & H2). exists b'. auto.
Qed.
Lemma resolved_code : forall lbls code code' k, resolved lbls code code' -> (forall t ins, nth_error code' t = Some ins -> at_ (k + t) ins) ->
  code_at (assoc lbls) k code.
Proof.
  intros lbls code code' k [Hl Hr] Hat t ins Ht. specialize (Hr t). rewrite Ht in Hr. destruct ins; try (apply Hat; exact Hr).
  destruct Hr as (l & Hl' & [Hr|[Hr (v & Hv1 & Hv2 & Hv3)]]); exists l; (split; [exact Hl'|]); [left; apply Hat; exact Hr|right].
  split; [apply Hat; exact Hr|]. exists (k + v). split; [lia|]. split; [apply Hat; exact Hv2|].
  intros z Hz. destruct (Hv3 (z - k)) as (l' & Hl''); [lia|]. exists l'. apply Hat in Hl''. replace (k + (z - k)) with z in Hl'' by lia. exact Hl''.
Qed.
Lemma resolved_plain : forall lbls code code' L k, resolved lbls code code' -> code_at L k code' -> forall t ins, nth_error code' t = Some ins -> at_ (k + t) ins.
Proof.
  intros lbls code code' L k [Hl Hr] Hat t ins Ht. pose proof (Hat t ins Ht) as H. destruct ins; try exact H. exfalso.
  specialize (Hr t). rewrite Ht in Hr. destruct (nth_error code t) as [[]|] eqn:Ec; try discriminate.
  destruct Hr as (l & _ & [Hr|[Hr _]]); discriminate.
Qed.
Lemma frag_grammar : forall n E defs st LEnd blocks code',
    (forall m b c, m < n -> assoc (inline_all thr defs) st = Some b -> CG (inline_all thr defs :: E) b c -> frag_at m (inline_all thr defs :: E) b c) -> sdok defs ->
    (forall b, In b blocks -> assoc (inline_all thr defs) (b_name b) = Some (b_patt b)) ->
    (forall b, In b blocks -> CG (inline_all thr defs :: E) (b_patt b) (b_code b)) ->
    resolved (blk_lbls blocks) ([IOpenCall st; IJump LEnd] ++ List.concat (map blk blocks)) code' ->
    frag_at n E (PGrammar defs st) (code' ++ [ILabel LEnd]).
Proof.
  intros n E defs st LEnd blocks code' IH Hd Hb HC Hres L pre post k i0 w r w' x stk base Q F Hc Hp Hm Hx Hat He Hle Hev Hn Hk.
  assert (Hpre : pre = []).
  { destruct pre as [|i1 pre]; [reflexivity|]. exfalso. destruct Hres as [Hl Hr]. specialize (Hr 0). simpl in Hr.
    destruct code' as [|c0 code']; [simpl in Hl; discriminate|]. simpl in Hc. injection Hc as <- _. simpl in Hr.
    destruct Hr as (l & _ & [Hr|[Hr _]]); injection Hr as ->; simpl in Hp; discriminate. }
  subst pre. simpl in Hc. subst post. simpl List.length. rewrite Nat.add_0_r. clear Hp Hm Hx.
  capp Hat A. chd Hat AE. clear Hat. pose proof (lbl_here _ _ AE) as IE.
  pose proof (resolved_plain _ _ _ _ _ Hres A) as Hplain. pose proof (resolved_code _ _ _ _ Hres Hplain) as Hcode.
  cbn [app] in Hcode. apply code_at_cons in Hcode. destruct Hcode as [Hcall Hcode]. chd Hcode AJ.
  assert (Henv : env_ok (inline_all thr defs :: E) (assoc (blk_lbls blocks))).
  { intros y l Hy. destruct (assoc_lbls _ _ _ Hy) as (b & Hin & Hn1 & Hl1). destruct (blocks_at _ _ _ _ Hcode Hin) as (o & Ho & Hco).
    rewrite Hl1 in Ho. pose proof (lbl_here _ _ Ho) as Io. exists (inline_all thr defs), E, (b_patt b), (b_code b).
    rewrite Io. repeat split; auto. rewrite <- Hn1. apply Hb. exact Hin. }
  eapply le_some in Hev; [|apply (inline_all_sle s CS check thr); exact Hd]. rewrite eval_grammar in Hev. destruct n as [|n]; [discriminate|].
  destruct (assoc (inline_all thr defs) st) as [b|] eqn:Est; [|discriminate].
  eapply (frag_call n); try eassumption.
  - intros. apply IH; [lia|reflexivity|assumption].
  - intros Fr E' HE. injection HE as <- <-. exact Est.
  - rewrite app_length in Hk. cbn [List.length] in Hk.
    destruct r; cbn [conts] in *; try exact Hk. intros cs F' Hf HF Hx. eapply G_jump; [exact AJ|]. rewrite IE. eapply G_label; [exact AE|].
    replace (S (k + List.length code')) with (k + (List.length code' + 1)) by lia. apply Hk; assumption.
Qed.

Theorem frag : forall n E p c, CG E p c -> frag_at n E p c.
Proof.
  induction n as [n IHn] using lt_wf_ind. intros E p c H. induction H.
  - eapply frag_ext; [|exact IHCG]. intros. symmetry. apply get_ok.
  - apply frag_chars; [|reflexivity]. apply cg_alt_set. assumption.
  - apply frag_alt; assumption.
  - eapply frag_alt_test; eassumption.
  - apply frag_seq; assumption.
  - apply frag_star_span. assumption.
  - eapply frag_star_tree; eassumption.
  - apply frag_star. assumption.
  - apply frag_plus; assumption.
  - eapply (frag_opt_test n E q (IChar b)); [reflexivity|intros b' Hb; injection Hb as <-; assumption|discriminate].
  - eapply (frag_opt_test n E q (ISet s0)); [reflexivity|discriminate|intros b' Hb; injection Hb as <-; assumption].
  - eapply frag_ext; [|exact IHCG]. intros. rewrite eval_opt, !eval_alt, get_ok. reflexivity.
  - apply frag_not. assumption.
  - apply frag_and. assumption.
  - apply frag_cap. assumption.
  - apply frag_cap_full; assumption.
  - apply frag_cap_late; assumption.
  - apply frag_memo; assumption.
  - apply frag_check. assumption.
  - eapply frag_le; [|intros L HL; exact HL|exact IHCG2]. intros. eapply search_sim; eassumption.
  - apply frag_emptyop.
  - eapply frag_leaf; eassumption.
  - eapply frag_grammar; try eassumption. intros. apply IHn; assumption.
  - apply frag_chars; [apply cg_class|reflexivity].
  - apply frag_chars; [apply cg_lit|]. clear. induction str; [reflexivity|exact IHstr].
  - apply frag_nt. intros. apply IHn; assumption.
  - eapply frag_ext; [|exact IHCG]. intros. apply eval_inl.
  - apply frag_chars; [apply cg_dot; assumption|]. cbn [forallb charlike]. rewrite andb_true_r. apply negb_true_iff. apply byte_eqb_neq. assumption.
  - apply frag_err_none.
  - apply frag_err. assumption.
  - apply frag_chars; [apply cg_empty|reflexivity].
Qed.
End Frag.
