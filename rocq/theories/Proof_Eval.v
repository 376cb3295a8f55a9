(** A fuelled evaluator equivalent to the relation of Spec_Peg, which also computes how far the input was
    examined.  Used by the compiler correctness proof. *)
From Verif Require Import Base Model_Charset Model_Isa Model_Capture Model_VM Model_Pattern Spec_Peg.
Local Open Scope nat_scope.

(** induction on patterns with hypotheses for nested patterns *)
Section PatInd.
Variable Q : pattern -> Prop.
Definition optQ (o : option pattern) : Prop := match o with Some p => Q p | None => True end.
Hypothesis HAlt : forall l r, Q l -> Q r -> Q (PAlt l r).
Hypothesis HSeq : forall l r, Q l -> Q r -> Q (PSeq l r).
Hypothesis HStar : forall p, Q p -> Q (PStar p).
Hypothesis HPlus : forall p, Q p -> Q (PPlus p).
Hypothesis HOpt : forall p, Q p -> Q (POpt p).
Hypothesis HNot : forall p, Q p -> Q (PNot p).
Hypothesis HAnd : forall p, Q p -> Q (PAnd p).
Hypothesis HCap : forall p id, Q p -> Q (PCap p id).
Hypothesis HMemo : forall p id, Q p -> Q (PMemo p id).
Hypothesis HCheck : forall p ck id fl, Q p -> Q (PCheck p ck id fl).
Hypothesis HGrammar : forall defs st, Forall (fun kq => Q (snd kq)) defs -> Q (PGrammar defs st).
Hypothesis HSearch : forall p, Q p -> Q (PSearch p).
Hypothesis HClass : forall c, Q (PClass c).
Hypothesis HLit : forall l, Q (PLit l).
Hypothesis HNonTerm : forall x o, optQ o -> Q (PNonTerm x o).
Hypothesis HDot : forall n, Q (PDot n).
Hypothesis HError : forall m o, optQ o -> Q (PError m o).
Hypothesis HEmptyOp : forall op, Q (PEmptyOp op).
Hypothesis HEmpty : Q PEmpty.
Fixpoint pattern_ind' (p : pattern) : Q p :=
  match p with
  | PAlt l r => HAlt l r (pattern_ind' l) (pattern_ind' r)
  | PSeq l r => HSeq l r (pattern_ind' l) (pattern_ind' r)
  | PStar p => HStar p (pattern_ind' p)
  | PPlus p => HPlus p (pattern_ind' p)
  | POpt p => HOpt p (pattern_ind' p)
  | PNot p => HNot p (pattern_ind' p)
  | PAnd p => HAnd p (pattern_ind' p)
  | PCap p id => HCap p id (pattern_ind' p)
  | PMemo p id => HMemo p id (pattern_ind' p)
  | PCheck p ck id fl => HCheck p ck id fl (pattern_ind' p)
  | PGrammar defs st => HGrammar defs st
      ((fix go (l : list (string * pattern)) : Forall (fun kq => Q (snd kq)) l :=
          match l with
          | [] => Forall_nil _
          | kq :: l => @Forall_cons _ (fun kq => Q (snd kq)) kq l (pattern_ind' (snd kq)) (go l)
          end) defs)
  | PSearch p => HSearch p (pattern_ind' p)
  | PClass c => HClass c
  | PLit l => HLit l
  | PNonTerm x o => HNonTerm x o (match o with Some q => pattern_ind' q | None => I end)
  | PDot n => HDot n
  | PError m o => HError m o (match o with Some q => pattern_ind' q | None => I end)
  | PEmptyOp op => HEmptyOp op
  | PEmpty => HEmpty
  end.
End PatInd.

Section Eval.
Variable s : list byte.
Variable CS : Type.
Variable check : nat -> CS -> list byte -> list byte -> nat -> Z -> Z -> CS * option nat.
Notation world := (world CS).

(** result, final world, and the end of the part of the input examined through Peek (Dot, checkers
    and the byte before an EmptyOp do not count: the machine's Furthest does not record them);
    [None] is out of fuel *)
Definition res : Type := (option pres * world * nat)%type.

Definition ebind (r : res) (k : nat -> world -> res) : res :=
  match r with
  | (Some (RSucc j ts), w, x) =>
      match k j w with
      | (Some (RSucc j' us), w', x') => (Some (RSucc j' (ts ++ us)), w', Nat.max x x')
      | (o, w', x') => (o, w', Nat.max x x')
      end
  | _ => r
  end.
Definition eorelse (r : res) (k : world -> res) : res :=
  match r with
  | (Some RFail, w, x) => match k w with (o, w', x') => (o, w', Nat.max x x') end
  | _ => r
  end.
(** apply [f] to a success *)
Definition emap (f : nat -> list ctree -> pres) (r : res) : res :=
  match r with (Some (RSucc j ts), w, x) => (Some (f j ts), w, x) | _ => r end.

Definition enot (i : nat) (r : res) : res :=
  match r with
  | (Some RFail, w, x) => (Some (RSucc i []), w, x)
  | (Some (RSucc _ _), w, x) => (Some RFail, w, x)
  | _ => r
  end.
Definition echeck (ck : nat) (id flag : Z) (i : nat) (r : res) : res :=
      match r with
      | (Some (RSucc j ts), (errs, cs), x) =>
          match check ck cs (firstn (j - i) (skipn i s)) s j id flag with
          | (cs', Some m) => (Some (RSucc (j + m) ts), (errs, cs'), x)
          | (cs', None) => (Some RFail, (errs, cs'), x)
          end
      | _ => r
      end.

Fixpoint lit_eval (str : list byte) (i : nat) (w : world) : res :=
  match str with
  | [] => (Some (RSucc i []), w, 0)
  | b :: str =>
      match nth_error s i with
      | Some c => if byte_eqb b c then ebind (Some (RSucc (S i) []), w, S i) (fun j w => lit_eval str j w)
                  else (Some RFail, w, S i)
      | None => (Some RFail, w, S i)
      end
  end.

Definition class_eval (c : cset) (i : nat) (w : world) : res :=
  match nth_error s i with
  | Some b => (Some (if cs_has c b then RSucc (S i) [] else RFail), w, S i)
  | None => (Some RFail, w, S i)
  end.

Fixpoint eval (n : nat) : env -> pattern -> nat -> world -> res :=
  fix go (E : env) (p : pattern) (i : nat) (w : world) {struct p} : res :=
  let tick (k : (env -> pattern -> nat -> world -> res) -> res) : res :=
    match n with O => (None, w, 0) | S n => k (eval n) end in
  match p with
  | PEmpty => (Some (RSucc i []), w, 0)
  | PLit str => lit_eval str i w
  | PClass c => class_eval c i w
  | PDot d => let n := N.to_nat (bN d) in
      (Some (if i + n <=? List.length s then RSucc (i + n) [] else RFail), w, 0)
  | PEmptyOp op => (Some (if empty_op_holds s i op then RSucc i [] else RFail), w, S i)
  | PSeq p q => ebind (go E p i w) (fun j w => go E q j w)
  | PAlt p q => eorelse (go E p i w) (fun w => go E q i w)
  | PStar q =>
      eorelse (ebind (go E q i w) (fun j w => match n with O => (None, w, 0) | S n => eval n E (PStar q) j w end))
              (fun w => (Some (RSucc i []), w, 0))
  | PPlus q =>
      ebind (go E q i w) (fun j w =>
        eorelse (ebind (go E q j w) (fun j w => match n with O => (None, w, 0) | S n => eval n E (PStar q) j w end))
                (fun w => (Some (RSucc j []), w, 0)))
  | POpt q => eorelse (go E q i w) (fun w => (Some (RSucc i []), w, 0))
  | PNot q =>
      enot i (go E q i w)
  | PAnd q => emap (fun _ ts => RSucc i ts) (go E q i w)
  | PCap q id => emap (fun j ts => RSucc j [CNode id i (j - i) ts]) (go E q i w)
  | PMemo q _ => go E q i w
  | PCheck q ck id flag =>
      echeck ck id flag i (go E q i w)
  | PError m (Some q) => go E q i (fst w ++ [(i, m)], snd w)
  | PError m None => (Some (RAbort i), (fst w ++ [(i, m)], snd w), 0)
  | PSearch q =>
      match n with
      | O => (None, w, 0)
      | S n => eorelse (eval n E q i w) (fun w =>
                 if i <? List.length s then eval n E (PSearch q) (S i) w else (Some RFail, w, 0))
      end
  | PGrammar defs start =>
      match n with
      | O => (None, w, 0)
      | S n => match assoc defs start with
               | Some b => eval n (defs :: E) b i w
               | None => (None, w, 0)
               end
      end
  | PNonTerm x None =>
      match n with
      | O => (None, w, 0)
      | S n => match lookup E x with
               | Some (b, E') => eval n E' b i w
               | None => (None, w, 0)
               end
      end
  | PNonTerm x (Some q) => go E q i w
  end.

(** the star of [q], as an equation *)
Lemma eval_plus : forall n E q i w, eval n E (PPlus q) i w = eval n E (PSeq q (PStar q)) i w.
Proof. intros. destruct n; reflexivity. Qed.
Lemma eval_opt : forall n E q i w, eval n E (POpt q) i w = eval n E (PAlt q PEmpty) i w.
Proof. intros. destruct n; reflexivity. Qed.
Lemma eval_alt : forall n E p q i w, eval n E (PAlt p q) i w = eorelse (eval n E p i w) (fun w => eval n E q i w).
Proof. intros. destruct n; reflexivity. Qed.
Lemma eval_seq : forall n E p q i w, eval n E (PSeq p q) i w = ebind (eval n E p i w) (fun j w => eval n E q j w).
Proof. intros. destruct n; reflexivity. Qed.
Lemma eval_star : forall n E q i w, eval n E (PStar q) i w =
  eorelse (ebind (eval n E q i w) (fun j w => match n with O => (None, w, 0) | S n => eval n E (PStar q) j w end))
              (fun w => (Some (RSucc i []), w, 0)).
Proof. intros. destruct n; reflexivity. Qed.
Lemma eval_not : forall n E q i w, eval n E (PNot q) i w =
      enot i (eval n E q i w).
Proof. intros. destruct n; reflexivity. Qed.
Lemma eval_and : forall n E q i w, eval n E (PAnd q) i w = emap (fun _ ts => RSucc i ts) (eval n E q i w).
Proof. intros. destruct n; reflexivity. Qed.
Lemma eval_cap : forall n E q id i w, eval n E (PCap q id) i w = emap (fun j ts => RSucc j [CNode id i (j - i) ts]) (eval n E q i w).
Proof. intros. destruct n; reflexivity. Qed.
Lemma eval_memo : forall n E q id i w, eval n E (PMemo q id) i w = eval n E q i w.
Proof. intros. destruct n; reflexivity. Qed.
Lemma eval_check : forall n E q ck id flag i w, eval n E (PCheck q ck id flag) i w =
      echeck ck id flag i (eval n E q i w).
Proof. intros. destruct n; reflexivity. Qed.
Lemma eval_error : forall n E q m i w, eval n E (PError m (Some q)) i w = eval n E q i (fst w ++ [(i, m)], snd w).
Proof. intros. destruct n; reflexivity. Qed.
Lemma eval_error_none : forall n E m i w, eval n E (PError m None) i w = (Some (RAbort i), (fst w ++ [(i, m)], snd w), 0).
Proof. intros. destruct n; reflexivity. Qed.
Lemma eval_search : forall n E q i w, eval n E (PSearch q) i w =
      match n with
      | O => (None, w, 0)
      | S n => eorelse (eval n E q i w) (fun w =>
                 if i <? List.length s then eval n E (PSearch q) (S i) w else (Some RFail, w, 0))
      end.
Proof. intros. destruct n; reflexivity. Qed.
Lemma eval_grammar : forall n E defs start i w, eval n E (PGrammar defs start) i w =
      match n with
      | O => (None, w, 0)
      | S n => match assoc defs start with
               | Some b => eval n (defs :: E) b i w
               | None => (None, w, 0)
               end
      end.
Proof. intros. destruct n; reflexivity. Qed.
Lemma eval_nt : forall n E x i w, eval n E (PNonTerm x None) i w =
      match n with
      | O => (None, w, 0)
      | S n => match lookup E x with
               | Some (b, E') => eval n E' b i w
               | None => (None, w, 0)
               end
      end.
Proof. intros. destruct n; reflexivity. Qed.
Lemma eval_inl : forall n E x q i w, eval n E (PNonTerm x (Some q)) i w = eval n E q i w.
Proof. intros. destruct n; reflexivity. Qed.
Lemma eval_lit : forall n E l i w, eval n E (PLit l) i w = lit_eval l i w.
Proof. intros. destruct n; reflexivity. Qed.
Lemma eval_class : forall n E c i w, eval n E (PClass c) i w = class_eval c i w.
Proof. intros. destruct n; reflexivity. Qed.
Lemma eval_dot : forall n E d i w, eval n E (PDot d) i w = 
  (Some (if i + N.to_nat (bN d) <=? List.length s then RSucc (i + N.to_nat (bN d)) [] else RFail), w, 0).
Proof. intros. destruct n; reflexivity. Qed.
Lemma eval_emptyop : forall n E op i w, eval n E (PEmptyOp op) i w = 
      (Some (if empty_op_holds s i op then RSucc i [] else RFail), w, S i).
Proof. intros. destruct n; reflexivity. Qed.
Lemma eval_empty : forall n E i w, eval n E PEmpty i w = (Some (RSucc i []), w, 0).
Proof. intros. destruct n; reflexivity. Qed.

(** less defined: equal unless out of fuel *)
Definition le_res (a b : res) : Prop := fst (fst a) <> None -> a = b.

Lemma le_refl : forall a, le_res a a. Proof. intros a _. reflexivity. Qed.
Lemma le_eq : forall a b, a = b -> le_res a b. Proof. intros a b -> _. reflexivity. Qed.
Lemma le_trans : forall a b c, le_res a b -> le_res b c -> le_res a c.
Proof. intros a b c H1 H2 H. specialize (H1 H). subst b. auto. Qed.
Lemma le_out : forall w x b, le_res (None, w, x) b. Proof. intros w x b H. elim H. reflexivity. Qed.

Lemma le_bind : forall a b f g, le_res a b -> (forall j w, le_res (f j w) (g j w)) -> le_res (ebind a f) (ebind b g).
Proof.
  intros [[oa wa] xa] b f g Hab Hfg H.
  destruct oa as [ra|]; [|elim H; reflexivity].
  assert (Hb : (Some ra, wa, xa) = b) by (apply Hab; discriminate). subst b.
  destruct ra; simpl in *; try reflexivity.
  specialize (Hfg j wa). destruct (f j wa) as [[o w'] x'].
  destruct o as [r|]; [|elim H; reflexivity].
  rewrite <- Hfg by discriminate. reflexivity.
Qed.
Lemma le_orelse : forall a b f g, le_res a b -> (forall w, le_res (f w) (g w)) -> le_res (eorelse a f) (eorelse b g).
Proof.
  intros [[oa wa] xa] b f g Hab Hfg H.
  destruct oa as [ra|]; [|elim H; reflexivity].
  assert (Hb : (Some ra, wa, xa) = b) by (apply Hab; discriminate). subst b.
  destruct ra; simpl in *; try reflexivity.
  specialize (Hfg wa). destruct (f wa) as [[o w'] x'].
  destruct o as [r|]; [|elim H; reflexivity].
  rewrite <- Hfg by discriminate. reflexivity.
Qed.
Lemma le_emap : forall a b f, le_res a b -> le_res (emap f a) (emap f b).
Proof.
  intros [[oa wa] xa] b f Hab H.
  destruct oa as [ra|]; [|elim H; reflexivity].
  rewrite <- Hab by discriminate. reflexivity.
Qed.
(** a context that maps out-of-fuel to out-of-fuel *)
Lemma le_ctx : forall (f : res -> res) a b, (forall w x, fst (fst (f (None, w, x))) = None) -> le_res a b -> le_res (f a) (f b).
Proof.
  intros f [[oa wa] xa] b Hf Hab H.
  destruct oa as [ra|]; [|elim H; apply Hf].
  rewrite <- Hab by discriminate. reflexivity.
Qed.

(** more fuel gives the same result *)
Lemma eval_mono1 : forall n E p i w, le_res (eval n E p i w) (eval (S n) E p i w).
Proof.
  induction n as [|n IHn]; intros E p; revert E;
  induction p using pattern_ind'; intros E i w;
  rewrite ?eval_plus, ?eval_opt, ?eval_alt, ?eval_seq, ?eval_star, ?eval_not, ?eval_and, ?eval_cap, ?eval_memo,
    ?eval_check, ?eval_search, ?eval_grammar, ?eval_lit, ?eval_class, ?eval_dot, ?eval_emptyop, ?eval_empty;
  try (apply le_refl);
  try (apply le_orelse; [apply IHp1 | intros; apply IHp2]);
  try (apply le_bind; [apply IHp1 | intros; apply IHp2]);
  try (apply le_emap; apply IHp); try apply IHp;
  try apply le_out;
  try (apply (le_ctx (enot i)); [reflexivity|apply IHp]);
  try (apply (le_ctx (echeck ck id fl i)); [reflexivity|apply IHp]);
  try (destruct o as [q|]; simpl in H; rewrite ?eval_inl, ?eval_nt, ?eval_error, ?eval_error_none;
       [apply H | (apply le_out || apply le_refl || idtac)]).
  - (* star 0 *) apply le_orelse; [|intros; apply le_refl]. apply le_bind; [apply IHp|]. intros. apply le_out.
  - (* plus 0 *) apply le_bind; [apply IHp|]. intros. rewrite !eval_star. apply le_orelse; [|intros; apply le_refl]. apply le_bind; [apply IHp|]. intros. apply le_out.
  - apply le_orelse; [apply IHp|]. intros. rewrite !eval_empty. apply le_refl.
  - apply le_orelse; [|intros; apply le_refl]. apply le_bind; [apply IHp|]. intros. apply IHn.
  - apply le_bind; [apply IHp|]. intros. rewrite !eval_star. apply le_orelse; [|intros; apply le_refl]. apply le_bind; [apply IHp|]. intros. apply IHn.
  - apply le_orelse; [apply IHp|]. intros. rewrite !eval_empty. apply le_refl.
  - destruct (assoc defs st); [apply IHn|apply le_out].
  - apply le_orelse; [apply IHn|]. intros. destruct (i <? List.length s); [|apply le_refl].
    apply IHn.
  - destruct (lookup E x) as [[b E']|]; [apply IHn|apply le_out].
Qed.

Lemma eval_mono : forall n m E p i w, n <= m -> le_res (eval n E p i w) (eval m E p i w).
Proof.
  intros n m E p i w H. induction H; [apply le_refl|].
  eapply le_trans; [apply IHle|apply eval_mono1].
Qed.

Lemma lit_eval_cases : forall str i w, exists x,
  (firstn (List.length str) (skipn i s) = str /\ lit_eval str i w = (Some (RSucc (i + List.length str) []), w, x)) \/
  (firstn (List.length str) (skipn i s) <> str /\ lit_eval str i w = (Some RFail, w, x)).
Proof.
  induction str as [|b str IH]; intros i w.
  - exists 0. left. rewrite Nat.add_0_r. auto.
  - rewrite (skipn_nth_error s i). cbn [lit_eval]. destruct (nth_error s i) as [c|] eqn:E.
    + destruct (byte_eqb b c) eqn:Eb.
      * apply byte_eqb_eq in Eb. subst c. destruct (IH (S i) w) as [x [[H1 H2]|[H1 H2]]]; unfold ebind; rewrite H2.
        -- eexists. left. split; [cbn [List.length firstn]; f_equal; exact H1|].
           cbn [List.length]. rewrite Nat.add_succ_r. reflexivity.
        -- eexists. right. split; [|reflexivity]. cbn [List.length firstn]. congruence.
      * exists (S i). right. split; [|reflexivity]. cbn [List.length firstn]. intro e. injection e; intros; subst.
        rewrite byte_eqb_refl in Eb. discriminate.
    + exists (S i). right. split; [discriminate|reflexivity].
Qed.

(** soundness of the evaluator *)
Lemma eval_sound : forall n E p i w r w' x, eval n E p i w = (Some r, w', x) -> peg s check E p i w r w'.
Proof.
  induction n as [n IHn] using lt_wf_ind; intros E p; revert E;
  induction p using pattern_ind'; intros E i w r w' x0 Hev.
  - rewrite eval_alt in Hev. destruct (eval n E p1 i w) as [[[[]|] w1] x1] eqn:E1; simpl in Hev; try discriminate.
    + destruct (eval n E p2 i w1) as [[o2 w2] x2] eqn:E2. injection Hev; intros; subst. eapply peg_alt_2; eauto.
    + injection Hev; intros; subst. apply peg_alt_1; eauto. discriminate.
    + injection Hev; intros; subst. apply peg_alt_1; eauto. discriminate.
  - rewrite eval_seq in Hev. destruct (eval n E p1 i w) as [[[[]|] w1] x1] eqn:E1; simpl in Hev; try discriminate.
    + injection Hev; intros; subst. apply peg_seq_no1; eauto. discriminate.
    + destruct (eval n E p2 j w1) as [[[[]|] w2] x2] eqn:E2; injection Hev; intros; subst; try discriminate.
      * eapply peg_seq_no2; eauto; discriminate.
      * eapply peg_seq_ok; eauto.
      * eapply peg_seq_no2; eauto; discriminate.
    + injection Hev; intros; subst. apply peg_seq_no1; eauto. discriminate.
  - rewrite eval_star in Hev. destruct (eval n E p i w) as [[[[]|] w1] x1] eqn:E1; simpl in Hev; try discriminate.
    + injection Hev; intros; subst. apply peg_star_end; eauto.
    + destruct n as [|n]; [discriminate|].
      destruct (eval n E (PStar p) j w1) as [[[[]|] w2] x2] eqn:E2; injection Hev; intros; subst; try discriminate.
      * exfalso. apply IHn in E2; [|lia]. inversion E2.
      * eapply peg_star_more; eauto.
      * eapply peg_star_abort2; eauto.
    + injection Hev; intros; subst. apply peg_star_abort1; eauto.
  - assert (Hstar : forall j w r w' x, eorelse (ebind (eval n E p j w) (fun j w => match n with O => (None, w, 0) | S n => eval n E (PStar p) j w end))
              (fun w => (Some (RSucc j []), w, 0)) = (Some r, w', x) -> peg s check E (PStar p) j w r w').
    { clear Hev. intros j w2 r2 w2' x2 Hev.
      destruct (eval n E p j w2) as [[[[]|] w1] x1] eqn:E1; simpl in Hev; try discriminate.
      + injection Hev; intros; subst. apply peg_star_end; eauto.
      + destruct n as [|n]; [discriminate|].
        destruct (eval n E (PStar p) j0 w1) as [[[[]|] w3] x3] eqn:E2; injection Hev; intros; subst; try discriminate.
        * exfalso. apply IHn in E2; [|lia]. inversion E2.
        * eapply peg_star_more; eauto.
        * eapply peg_star_abort2; eauto.
      + injection Hev; intros; subst. apply peg_star_abort1; eauto. }
    rewrite eval_plus in Hev. apply peg_plus. rewrite eval_seq in Hev.
    destruct (eval n E p i w) as [[[[]|] w1] x1] eqn:E1; simpl in Hev; try discriminate.
    + injection Hev; intros; subst. apply peg_seq_no1; eauto. discriminate.
    + rewrite eval_star in Hev. destruct (eorelse _ _) as [[[[]|] w2] x2] eqn:E2 in Hev; injection Hev; intros; subst; try discriminate.
      * eapply peg_seq_no2; eauto; discriminate.
      * eapply peg_seq_ok; eauto.
      * eapply peg_seq_no2; eauto; discriminate.
    + injection Hev; intros; subst. apply peg_seq_no1; eauto. discriminate.
  - rewrite eval_opt, eval_alt in Hev. apply peg_opt. destruct (eval n E p i w) as [[[[]|] w1] x1] eqn:E1; simpl in Hev; try discriminate.
    + rewrite eval_empty in Hev. injection Hev; intros; subst. eapply peg_alt_2; eauto. constructor.
    + injection Hev; intros; subst. apply peg_alt_1; eauto. discriminate.
    + injection Hev; intros; subst. apply peg_alt_1; eauto. discriminate.
  - rewrite eval_not in Hev. destruct (eval n E p i w) as [[[[]|] w1] x1] eqn:E1; simpl in Hev; injection Hev; intros; subst; try discriminate.
    + apply peg_not_ok; eauto.
    + eapply peg_not_fail; eauto.
    + eapply peg_not_abort; eauto.
  - rewrite eval_and in Hev. destruct (eval n E p i w) as [[[[]|] w1] x1] eqn:E1; simpl in Hev; injection Hev; intros; subst; try discriminate.
    + apply peg_and_no; eauto. discriminate.
    + eapply peg_and_ok; eauto.
    + apply peg_and_no; eauto. discriminate.
  - rewrite eval_cap in Hev. destruct (eval n E p i w) as [[[[]|] w1] x1] eqn:E1; simpl in Hev; injection Hev; intros; subst; try discriminate.
    + apply peg_cap_no; eauto. discriminate.
    + eapply peg_cap_ok; eauto.
    + apply peg_cap_no; eauto. discriminate.
  - rewrite eval_memo in Hev. apply peg_memo; eauto.
  - rewrite eval_check in Hev. destruct (eval n E p i w) as [[[[]|] [errs cs]] x1] eqn:E1; simpl in Hev; try (injection Hev; intros; subst); try discriminate.
    + apply peg_check_no; eauto. discriminate.
    + destruct (check _ _ _ _ _ _ _) as [cs' [m|]] eqn:Ec; injection Hev; intros; subst.
      * eapply peg_check_ok; eauto.
      * eapply peg_check_reject; eauto.
    + apply peg_check_no; eauto. discriminate.
  - rewrite eval_grammar in Hev. destruct n as [|n]; [discriminate|].
    destruct (assoc defs st) eqn:Ea; [|discriminate]. eapply peg_grammar; eauto.
  - rewrite eval_search in Hev. destruct n as [|n]; [discriminate|]. destruct (eval n E p i w) as [[[[]|] w1] x1] eqn:E1; simpl in Hev; try discriminate.
    + destruct (i <? List.length s) eqn:El.
      * apply Nat.ltb_lt in El.
        destruct (eval n E (PSearch p) (S i) w1) as [[o2 w2] x2] eqn:E2. injection Hev; intros; subst.
        eapply peg_search_next; eauto.
      * apply Nat.ltb_ge in El. injection Hev; intros; subst. apply peg_search_end; eauto.
    + injection Hev; intros; subst. apply peg_search_here; eauto. discriminate.
    + injection Hev; intros; subst. apply peg_search_here; eauto. discriminate.
  - rewrite eval_class in Hev. unfold class_eval in Hev. destruct (nth_error s i) eqn:En.
    + destruct (cs_has c b) eqn:Eh; injection Hev; intros; subst; econstructor; eauto.
    + injection Hev; intros; subst. apply peg_class_end; auto.
  - rewrite eval_lit in Hev. destruct (lit_eval_cases l i w) as [x [[H1 Hl]|[H1 Hl]]]; rewrite Hl in Hev;
    injection Hev; intros; subst; constructor; auto.
  - destruct o as [q|]; simpl in H.
    + rewrite eval_inl in Hev. apply peg_inlined; eauto.
    + rewrite eval_nt in Hev. destruct n as [|n]; [discriminate|].
      destruct (lookup E x) as [[b E']|] eqn:El; [|discriminate]. eapply peg_nonterm; eauto.
  - rewrite eval_dot in Hev. destruct (_ <=? _) eqn:El in Hev; injection Hev; intros; subst.
    + apply Nat.leb_le in El. constructor; auto.
    + apply Nat.leb_gt in El. constructor; auto.
  - destruct w as [errs cs]. destruct o as [q|]; simpl in H.
    + rewrite eval_error in Hev. apply peg_error. eapply H; eauto.
    + rewrite eval_error_none in Hev. injection Hev; intros; subst. apply peg_error_abort.
  - rewrite eval_emptyop in Hev. destruct (empty_op_holds s i op) eqn:Eo; injection Hev; intros; subst; constructor; auto.
  - rewrite eval_empty in Hev. injection Hev; intros; subst. constructor.
Qed.

(** completeness of the evaluator *)
Definition evals E p i w r w' := exists n x, eval n E p i w = (Some r, w', x).

Lemma evals_up : forall n E p i w r w' x m, eval n E p i w = (Some r, w', x) -> n <= m -> eval m E p i w = (Some r, w', x).
Proof. intros. rewrite <- H. symmetry. apply eval_mono; [assumption|]. rewrite H. discriminate. Qed.

Ltac up1 H n m := eapply (evals_up _ _ _ _ _ _ _ _ (Nat.max n m)) in H; [|lia].

Lemma eval_complete : forall E p i w r w', peg s check E p i w r w' -> evals E p i w r w'.
Proof.
  intros E p i w r w' H. unfold evals. induction H;
    repeat match goal with H : exists _ _, _ |- _ => destruct H as (? & ? & ?) end.
  - exists 0, 0. reflexivity.
  - destruct (lit_eval_cases str i w) as [x [[H1 Hx]|[H1 Hx]]]; [|contradiction]. exists 0, x. rewrite eval_lit, Hx. reflexivity.
  - destruct (lit_eval_cases str i w) as [x [[H1 Hx]|[H1 Hx]]]; [contradiction|]. exists 0, x. rewrite eval_lit, Hx. reflexivity.
  - exists 0, (S i). rewrite eval_class. unfold class_eval. rewrite H, H0. reflexivity.
  - exists 0, (S i). rewrite eval_class. unfold class_eval. rewrite H, H0. reflexivity.
  - exists 0, (S i). rewrite eval_class. unfold class_eval. rewrite H. reflexivity.
  - eexists 0, _. rewrite eval_dot. apply Nat.leb_le in H. rewrite H. reflexivity.
  - eexists 0, _. rewrite eval_dot. apply Nat.leb_gt in H. rewrite H. reflexivity.
  - eexists 0, _. rewrite eval_emptyop, H. reflexivity.
  - eexists 0, _. rewrite eval_emptyop, H. reflexivity.
  - up1 H2 x x1. up1 H1 x x1. do 2 eexists. rewrite eval_seq, H2. simpl. rewrite H1. reflexivity.
  - do 2 eexists. rewrite eval_seq, H1. simpl. destruct r; [|elim (H0 j ts)|]; reflexivity.
  - up1 H3 x x1. up1 H2 x x1. do 2 eexists. rewrite eval_seq, H3. simpl. rewrite H2. destruct r; [|elim (H1 j0 ts0)|]; reflexivity.
  - do 2 eexists. rewrite eval_alt, H1. destruct r; [elim H0| |]; reflexivity.
  - up1 H2 x x1. up1 H1 x x1. do 2 eexists. rewrite eval_alt, H2. simpl. rewrite H1. reflexivity.
  - do 2 eexists. rewrite eval_star, H0. reflexivity.
  - eapply evals_up with (m := Nat.max x x1) in H1; [|lia]. eapply evals_up with (m := S (Nat.max x x1)) in H2; [|lia].
    exists (S (Nat.max x x1)). eexists. rewrite eval_star, H2. simpl. rewrite H1. reflexivity.
  - do 2 eexists. rewrite eval_star, H0. reflexivity.
  - eapply evals_up with (m := Nat.max x x1) in H1; [|lia]. eapply evals_up with (m := S (Nat.max x x1)) in H2; [|lia].
    exists (S (Nat.max x x1)). eexists. rewrite eval_star, H2. simpl. rewrite H1. reflexivity.
  - do 2 eexists. rewrite eval_plus. eassumption.
  - do 2 eexists. rewrite eval_opt. eassumption.
  - do 2 eexists. rewrite eval_not, H0. reflexivity.
  - do 2 eexists. rewrite eval_not, H0. reflexivity.
  - do 2 eexists. rewrite eval_not, H0. reflexivity.
  - do 2 eexists. rewrite eval_and, H0. reflexivity.
  - do 2 eexists. rewrite eval_and, H1. destruct r; [|elim (H0 j ts)|]; reflexivity.
  - do 2 eexists. rewrite eval_cap, H0. reflexivity.
  - do 2 eexists. rewrite eval_cap, H1. destruct r; [|elim (H0 j ts)|]; reflexivity.
  - do 2 eexists. rewrite eval_memo. eassumption.
  - do 2 eexists. rewrite eval_check, H1. unfold echeck. rewrite H0. reflexivity.
  - do 2 eexists. rewrite eval_check, H1. unfold echeck. rewrite H0. reflexivity.
  - do 2 eexists. rewrite eval_check, H1. destruct r; [|elim (H0 j ts)|]; reflexivity.
  - do 2 eexists. rewrite eval_error. eassumption.
  - do 2 eexists. rewrite eval_error_none. reflexivity.
  - exists (S x). eexists. rewrite eval_search, H1. destruct r; [elim H0| |]; reflexivity.
  - eapply evals_up with (m := Nat.max x x1) in H2; [|lia]. eapply evals_up with (m := Nat.max x x1) in H3; [|lia].
    exists (S (Nat.max x x1)). eexists. rewrite eval_search, H3. simpl eorelse. apply Nat.ltb_lt in H0. rewrite H0, H2. reflexivity.
  - exists (S x). eexists. rewrite eval_search, H1. simpl eorelse. apply Nat.ltb_ge in H0. rewrite H0. reflexivity.
  - exists (S x). eexists. rewrite eval_grammar, H. eassumption.
  - exists (S x0). eexists. rewrite eval_nt, H. eassumption.
  - do 2 eexists. rewrite eval_inl. eassumption.
  Unshelve. all: exact 0.
Qed.

Lemma evals_det : forall E p i w r1 w1 r2 w2, evals E p i w r1 w1 -> evals E p i w r2 w2 -> r1 = r2 /\ w1 = w2.
Proof.
  intros E p i w r1 w1 r2 w2 (n & x & H1) (m & y & H2).
  up1 H1 n m. up1 H2 n m. rewrite H1 in H2. injection H2; auto.
Qed.

Lemma peg_det : forall E p i w r1 w1 r2 w2, peg s check E p i w r1 w1 -> peg s check E p i w r2 w2 -> r1 = r2 /\ w1 = w2.
Proof. intros. eapply evals_det; apply eval_complete; eassumption. Qed.
End Eval.
Arguments eval s {CS} check. Arguments evals s {CS} check. Arguments ebind {CS}. Arguments eorelse {CS}. Arguments emap {CS}.
Arguments lit_eval s {CS}. Arguments class_eval s {CS}. Arguments le_res {CS}.
