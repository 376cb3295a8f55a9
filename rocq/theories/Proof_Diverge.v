(** Code of a pattern that has no result runs forever: it takes more backward jumps and calls than
    any given number. *)
From Verif Require Import Base Model_Charset Proof_Charset Model_Isa Model_Capture Model_Input Spec_Input Proof_Input Model_VM Model_Pattern Spec_Peg Spec_Scope Proof_Eval Proof_Get Proof_Inline Proof_Codegen Proof_Machine Proof_Frag.
Local Open Scope nat_scope.
Arguments Nat.max : simpl never.

(* ---------- patterns that have a result ---------- *)
Section Conv.
Variable s : list byte.
Variable CS : Type.
Variable check : nat -> CS -> list byte -> list byte -> nat -> Z -> Z -> CS * option nat.
Notation eval := (eval s check).
Notation world := (world CS).
Definition conv (E : env) (p : pattern) (i : nat) (w : world) : Prop := exists n r w' x, eval n E p i w = (Some r, w', x).

Lemma conv_ext : forall E p E' p' i w, (forall n, eval n E p i w = eval n E' p' i w) -> conv E' p' i w -> conv E p i w.
Proof. intros E p E' p' i w H (n & r & w' & x & He). exists n, r, w', x. rewrite H. exact He. Qed.
Lemma conv_get : forall E p i w, conv E (get p) i w <-> conv E p i w.
Proof. intros. split; apply conv_ext; intro; [symmetry|]; apply get_ok. Qed.
Lemma conv_alt : forall n E l r i w o w1 x, eval n E l i w = (Some o, w1, x) -> (o = RFail -> conv E r i w1) -> conv E (PAlt l r) i w.
Proof.
  intros n E l r i w o w1 x He H. destruct o.
  - destruct (H eq_refl) as (m & o & w2 & x2 & H2). up1 He n m. up1 H2 n m. do 4 eexists. rewrite eval_alt, He. cbn [eorelse]. rewrite H2. reflexivity.
  - do 4 eexists. rewrite eval_alt, He. reflexivity.
  - do 4 eexists. rewrite eval_alt, He. reflexivity.
Qed.
Lemma conv_seq : forall n E l r i w o w1 x, eval n E l i w = (Some o, w1, x) -> (forall j ts, o = RSucc j ts -> conv E r j w1) -> conv E (PSeq l r) i w.
Proof.
  intros n E l r i w o w1 x He H. destruct o.
  - do 4 eexists. rewrite eval_seq, He. reflexivity.
  - destruct (H _ _ eq_refl) as (m & o & w2 & x2 & H2). up1 He n m. up1 H2 n m.
    exists (Nat.max n m). rewrite eval_seq, He. cbn [ebind]. rewrite H2. destruct o; do 3 eexists; reflexivity.
  - do 4 eexists. rewrite eval_seq, He. reflexivity.
Qed.
Lemma conv_star : forall n E q i w o w1 x, eval n E q i w = (Some o, w1, x) -> (forall j ts, o = RSucc j ts -> conv E (PStar q) j w1) -> conv E (PStar q) i w.
Proof.
  intros n E q i w o w1 x He H. destruct o.
  - do 4 eexists. rewrite eval_star, He. reflexivity.
  - destruct (H _ _ eq_refl) as (m & o & w2 & x2 & H2). eapply (evals_up _ _ _ _ _ _ _ _ _ _ _ (S (Nat.max n m))) in He; [|lia]. up1 H2 n m.
    exists (S (Nat.max n m)). rewrite eval_star, He. cbn [ebind]. rewrite H2. destruct o; do 3 eexists; reflexivity.
  - do 4 eexists. rewrite eval_star, He. reflexivity.
Qed.
Lemma conv_not : forall E q i w, conv E q i w -> conv E (PNot q) i w.
Proof. intros E q i w (n & o & w1 & x & H). exists n. rewrite eval_not, H. destruct o; do 3 eexists; reflexivity. Qed.
Lemma conv_and : forall E q i w, conv E q i w -> conv E (PAnd q) i w.
Proof. intros E q i w (n & o & w1 & x & H). exists n. rewrite eval_and, H. destruct o; do 3 eexists; reflexivity. Qed.
Lemma conv_cap : forall E q id i w, conv E q i w -> conv E (PCap q id) i w.
Proof. intros E q id i w (n & o & w1 & x & H). exists n. rewrite eval_cap, H. destruct o; do 3 eexists; reflexivity. Qed.
Lemma conv_memo : forall E q id i w, conv E q i w -> conv E (PMemo q id) i w.
Proof. intros E q id i w. apply conv_ext. intro. apply eval_memo. Qed.
Lemma conv_check : forall E q ck id fl i w, conv E q i w -> conv E (PCheck q ck id fl) i w.
Proof.
  intros E q ck id fl i w (n & o & [e1 c1] & x & H). exists n. rewrite eval_check, H. destruct o; cbn [echeck]; try (do 3 eexists; reflexivity).
  destruct (check ck c1 (firstn (j - i) (skipn i s)) s j id fl) as [c' [m|]]; do 3 eexists; reflexivity.
Qed.
Lemma conv_error : forall E m q i w, conv E q i (fst w ++ [(i, m)], snd w) -> conv E (PError m (Some q)) i w.
Proof. intros E m q i w (n & o & w1 & x & H). exists n, o, w1, x. rewrite eval_error. exact H. Qed.
Lemma conv_search : forall n E q i w o w1 x, eval n E q i w = (Some o, w1, x) -> (o = RFail -> i < List.length s -> conv E (PSearch q) (S i) w1) -> conv E (PSearch q) i w.
Proof.
  intros n E q i w o w1 x He H. destruct o.
  - destruct (Nat.ltb_spec i (List.length s)) as [Hl|Hl].
    + destruct (H eq_refl Hl) as (m & o & w2 & x2 & H2). up1 He n m. up1 H2 n m. exists (S (Nat.max n m)). rewrite eval_search, He. cbn [eorelse].
      apply Nat.ltb_lt in Hl. rewrite Hl, H2. do 3 eexists. reflexivity.
    + exists (S n). rewrite eval_search, He. cbn [eorelse]. apply Nat.ltb_ge in Hl. rewrite Hl. do 3 eexists. reflexivity.
  - exists (S n). rewrite eval_search, He. do 3 eexists. reflexivity.
  - exists (S n). rewrite eval_search, He. do 3 eexists. reflexivity.
Qed.
Lemma conv_nt : forall E x b E' i w, lookup E x = Some (b, E') -> conv E' b i w -> conv E (PNonTerm x None) i w.
Proof. intros E x b E' i w Hl (n & o & w1 & y & H). exists (S n), o, w1, y. rewrite eval_nt, Hl. exact H. Qed.
Lemma conv_gram : forall E defs st b i w, assoc defs st = Some b -> conv (defs :: E) b i w -> conv E (PGrammar defs st) i w.
Proof. intros E defs st b i w Hl (n & o & w1 & y & H). exists (S n), o, w1, y. rewrite eval_grammar, Hl. exact H. Qed.
Lemma conv_inline : forall thr E defs st b i w, sdok defs -> assoc (inline_all thr defs) st = Some b -> conv (inline_all thr defs :: E) b i w ->
  conv E (PGrammar defs st) i w.
Proof.
  intros thr E defs st b i w Hd Hb Hc. pose proof (conv_gram _ _ _ _ _ _ Hb Hc) as (n & o & w1 & x & H). destruct Hd as [Hd|Hd].
  - unfold inline_all in H. destruct (inline_n_ge s _ check thr (S (count_open defs)) n E defs st i w Hd) as (m & Hm).
    exists m, o, w1, x. rewrite H in Hm. symmetry. apply Hm. discriminate.
  - rewrite selfdef_inline in H by exact Hd. exists n, o, w1, x. exact H.
Qed.
Lemma conv_class : forall E set i w, conv E (PClass set) i w.
Proof. intros. exists 0. rewrite eval_class. unfold class_eval. destruct (nth_error s i) as [b|]; [destruct (cs_has set b)|]; do 3 eexists; reflexivity. Qed.
Lemma conv_lit : forall E str i w, conv E (PLit str) i w.
Proof.
  intros. exists 0. rewrite eval_lit. destruct (lit_eval_cases s CS str i w) as (x & [[_ H]|[_ H]]); rewrite H; do 3 eexists; reflexivity.
Qed.
Lemma conv_dot : forall E d i w, conv E (PDot d) i w.
Proof. intros. exists 0. rewrite eval_dot. match goal with |- context [if ?b then _ else _] => destruct b end; do 3 eexists; reflexivity. Qed.
Lemma conv_emptyop : forall E op i w, conv E (PEmptyOp op) i w.
Proof. intros. exists 0. rewrite eval_emptyop. destruct (empty_op_holds s i op); do 3 eexists; reflexivity. Qed.
Lemma conv_empty : forall E i w, conv E PEmpty i w.
Proof. intros. exists 0. rewrite eval_empty. do 3 eexists; reflexivity. Qed.
Lemma conv_star_class : forall E set i w, conv E (PStar (PClass set)) i w.
Proof.
  intros E set i w. remember (List.length s - i) as m eqn:Hm. revert i Hm. induction m as [m IH] using lt_wf_ind. intros i Hm.
  apply (conv_star 0 _ _ _ _ (if match nth_error s i with Some b => cs_has set b | None => false end then RSucc (S i) [] else RFail) w (S i)).
  - rewrite eval_class. unfold class_eval. destruct (nth_error s i) as [b|]; [destruct (cs_has set b)|]; reflexivity.
  - intros j ts Hj. destruct (nth_error s i) as [b|] eqn:Eb; [|discriminate]. destruct (cs_has set b); [|discriminate]. injection Hj as <- <-.
    assert (i < List.length s) by (apply nth_error_Some; congruence). apply (IH (List.length s - S i)); [lia|reflexivity].
Qed.
Lemma conv_alt_set : forall E l r set i w, combine (get l) (get r) = Some set -> conv E (PAlt l r) i w.
Proof.
  intros E l r set i w H. apply (conv_ext _ _ E (PClass set)); [|apply conv_class]. intro n. rewrite eval_alt, (combine_eval _ _ _ _ _ _ _ _ _ _ H).
  apply eorelse_cong; [symmetry; apply get_ok|intros; symmetry; apply get_ok].
Qed.
Lemma star_memo : forall n E q q' id i w, get q = PMemo q' id -> eval n E (PStar q) i w = eval n E (PStar q') i w.
Proof.
  intros n E q q' id i w Hg. rewrite <- (star_get _ _ _ n E q), Hg. revert i w. induction n as [|n IH]; intros; rewrite !eval_star, eval_memo; [reflexivity|].
  apply eorelse_cong; [|auto]. apply ebind_cong; [reflexivity|]. intros. apply IH.
Qed.

(** the search loop: if the generated grammar has a result, so has the search *)
Section Search.
Variables (E : env) (q : pattern) (csub : program).
Hypothesis Hhead : forall ins rest, csub = ins :: rest -> charlike ins = true -> forall i, nomatch s ins i ->
  forall w, exists n x, eval n E q i w = (Some RFail, w, x).
Hypothesis HS : ~ In "S"%string (free_nts q).
Lemma skip_conv : forall set i b, skip_of csub = Some set -> nth_error s i = Some b -> cs_has set b = true ->
  forall w, exists n x, eval n E q i w = (Some RFail, w, x).
Proof.
  intros set i b Hs Hb Hh w. unfold skip_of in Hs. destruct csub as [|ins rest]; [discriminate|].
  destruct ins; try discriminate.
  - injection Hs as <-. rewrite cs_compl_has, has_single in Hh.
    apply (Hhead _ _ eq_refl eq_refl i). unfold nomatch. rewrite Hb. simpl. destruct (byte_eqb b0 b); [discriminate|reflexivity].
  - destruct (cs_size s0 <? 10); [|discriminate]. injection Hs as <-. rewrite cs_compl_has in Hh.
    apply (Hhead _ _ eq_refl eq_refl i). unfold nomatch. rewrite Hb. simpl. destruct (cs_has s0 b); [discriminate|reflexivity].
Qed.
Lemma span_back : forall set w, skip_of csub = Some set -> forall m i, conv E (PSearch q) (span_end s m set i) w -> conv E (PSearch q) i w.
Proof.
  intros set w Hs. induction m as [|m IH]; intros i H; [exact H|]. cbn [span_end] in H. destruct (nth_error s i) as [b|] eqn:Eb; [|exact H].
  destruct (cs_has set b) eqn:Hh; [|exact H]. destruct (skip_conv set i b Hs Eb Hh w) as (n & x & Hn).
  eapply conv_search; [exact Hn|]. intros _ _. apply IH. exact H.
Qed.
Lemma search_conv : forall n i w, fst (fst (eval n ([("S"%string, search_body q (skip_of csub))] :: E) (search_body q (skip_of csub)) i w)) <> None ->
  conv E (PSearch q) i w.
Proof.
  induction n as [n IHn] using lt_wf_ind. intros i w H. rewrite search_body_eq in H at 2. rewrite eval_alt in H.
  rewrite search_q in H by exact HS. destruct (eval n E q i w) as [[[o|] w1] x1] eqn:Eq; [|elim H; reflexivity].
  eapply conv_search; [exact Eq|]. intros -> Hl. cbn [eorelse] in H. rewrite eval_seq, eval_dot in H. change (N.to_nat (bN x01)) with 1 in H.
  destruct (Nat.leb_spec (i + 1) (List.length s)); [|lia]. rewrite Nat.add_1_r in H. cbn [ebind] in H.
  assert (Hsk : (exists set, skip_of csub = Some set) \/ skip_of csub = None) by (destruct (skip_of csub); eauto).
  assert (Hnt : forall m j w2, m <= n -> fst (fst (eval m ([("S"%string, search_body q (skip_of csub))] :: E) (PNonTerm "S" None) j w2)) <> None -> conv E (PSearch q) j w2).
  { intros m j w2 Hm H2. rewrite eval_nt in H2. destruct m as [|m]; [elim H2; reflexivity|]. cbn [lookup assoc] in H2. change (String.eqb "S" "S") with true in H2. cbv iota in H2.
    apply (IHn m); [lia|exact H2]. }
  destruct Hsk as [(set & Es)|Es]; rewrite Es in H at 2.
  - rewrite eval_seq in H.
    destruct (eval n ([("S"%string, search_body q (skip_of csub))] :: E) (PStar (PClass set)) (S i) w1) as [[[o|] w2] x2] eqn:Est; [|elim H; reflexivity].
    apply (star_class 1 Nat.lt_0_1) in Est; destruct Est as (-> & -> & _). cbn [ebind] in H.
    apply (span_back set w1 Es (S (List.length s))). apply (Hnt n); [lia|]. intro H2. apply H.
    destruct (eval n ([("S"%string, search_body q (skip_of csub))] :: E) (PNonTerm "S" None) (span_end s (S (List.length s)) set (S i)) w1) as [[[o|] w3] x3]; [discriminate H2|reflexivity].
  - apply (Hnt n); [lia|]. intro H2. apply H. destruct (eval n ([("S"%string, search_body q (skip_of csub))] :: E) (PNonTerm "S" None) (S i) w1) as [[[o|] w3] x3]; [discriminate H2|reflexivity].
Qed.
Lemma search_grammar_conv : forall i w, conv E (search_grammar q (skip_of csub)) i w -> conv E (PSearch q) i w.
Proof.
  intros i w (n & o & w1 & x & H). unfold search_grammar in H. rewrite eval_grammar in H. destruct n as [|n]; [discriminate|].
  cbn [assoc] in H. change (String.eqb "S" "S") with true in H. cbv iota in H. apply (search_conv n). rewrite H. discriminate.
Qed.
End Search.

(** byte tests at the head of the code decide the result *)
Variable thr : nat.
Variable MOK : Z -> env -> pattern -> Prop.
Variable TOK : Z -> env -> pattern -> Prop.
Notation CG := (CG thr MOK TOK).
Definition pc_all (E : env) (p : pattern) (c : program) (i : nat) : Prop := forallb charlike c = true -> matches s c i -> forall w, conv E p i w.
Definition pc_no (E : env) (p : pattern) (c : program) (i : nat) : Prop :=
  forall pre ins rest, c = pre ++ ins :: rest -> forallb charlike pre = true -> charlike ins = true ->
    matches s pre i -> nomatch s ins (i + wds pre) -> forall w, conv E p i w.
Lemma pc_no_head : forall E p c i ins c', c = ins :: c' -> charlike ins = false -> pc_no E p c i.
Proof.
  intros E p c i ins c' -> H pre ins' rest Hc Hp Hi. destruct pre; simpl in Hc; injection Hc as -> _; [congruence|].
  simpl in Hp. rewrite H in Hp. discriminate.
Qed.
Lemma pc_all_head : forall E p c i ins c', c = ins :: c' -> charlike ins = false -> pc_all E p c i.
Proof. intros E p c i ins c' -> H Hc. simpl in Hc. rewrite H in Hc. discriminate. Qed.
Lemma pc_imp : forall E p E' p' c i, (forall w, conv E' p' i w -> conv E p i w) ->
  pc_all E' p' c i /\ pc_no E' p' c i -> pc_all E p c i /\ pc_no E p c i.
Proof.
  intros E p E' p' c i Hle [H1 H2]. split.
  - intros Hc Hm w. apply Hle. apply H1; assumption.
  - intros pre ins rest Hc Hp Hi Hm Hno w. apply Hle. eapply H2; eassumption.
Qed.
Lemma pc_conv : forall E p c i, (forall w, conv E p i w) -> pc_all E p c i /\ pc_no E p c i.
Proof. intros E p c i H. split; [intros _ _ w; apply H|intros pre ins rest _ _ _ _ _ w; apply H]. Qed.

Lemma all_res : forall E p c i w, CG E p c -> forallb charlike c = true -> matches s c i -> conv E p i w ->
  exists n x, eval n E p i w = (Some (RSucc (i + wds c) []), w, x).
Proof.
  intros E p c i w HC Hc Hm (n & o & w1 & x & H). destruct (prefix_all s CS check thr MOK TOK _ _ _ HC i Hc Hm _ _ _ _ _ H) as (-> & -> & _). eauto.
Qed.
Lemma no_res : forall E p c i w pre ins rest, CG E p c -> c = pre ++ ins :: rest -> forallb charlike pre = true -> charlike ins = true ->
  matches s pre i -> nomatch s ins (i + wds pre) -> conv E p i w -> exists n x, eval n E p i w = (Some RFail, w, x).
Proof.
  intros E p c i w pre ins rest HC Hc Hp Hi Hm Hno (n & o & w1 & x & H).
  destruct (prefix_no s CS check thr MOK TOK _ _ _ HC i pre ins rest Hc Hp Hi Hm Hno _ _ _ _ _ H) as (-> & -> & _). eauto.
Qed.

Lemma pconv : forall E p c, CG E p c -> forall i, pc_all E p c i /\ pc_no E p c i.
Proof.
  intros E p c H. induction H; intro i;
    try (split; [eapply pc_all_head; reflexivity | eapply pc_no_head; reflexivity]).
  - (* get *) eapply pc_imp; [|apply IHCG]. intros w. apply conv_get.
  - (* alt_set *) apply pc_conv. intro. eapply conv_alt_set. eassumption.
  - (* alt_test *) destruct h; try discriminate; injection H1 as <-;
      (split; [eapply pc_all_head; reflexivity | eapply pc_no_head; reflexivity]).
  - (* seq *) split.
    + intros Hc Hm w. rewrite forallb_app in Hc. apply andb_true_iff in Hc. destruct Hc as [Hc1 Hc2].
      apply matches_app in Hm. destruct Hm as [Hm1 Hm2].
      destruct (all_res _ _ _ _ _ H Hc1 Hm1 (proj1 (IHCG1 i) Hc1 Hm1 w)) as (n & x & Hn).
      eapply conv_seq; [exact Hn|]. intros j ts Hj. injection Hj as <- <-. apply (proj1 (IHCG2 _) Hc2 Hm2).
    + intros pre ins rest Hc Hp Hi Hm Hno w. apply app_split in Hc. destruct Hc as [(e & -> & Hr)|(e & Hcl & Hr)].
      * rewrite forallb_app in Hp. apply andb_true_iff in Hp. destruct Hp as [Hp1 Hp2].
        apply matches_app in Hm. destruct Hm as [Hm1 Hm2]. rewrite wds_app, Nat.add_assoc in Hno.
        destruct (all_res _ _ _ _ _ H Hp1 Hm1 (proj1 (IHCG1 i) Hp1 Hm1 w)) as (n & x & Hn).
        eapply conv_seq; [exact Hn|]. intros j ts Hj. injection Hj as <- <-. eapply (proj2 (IHCG2 _)); eassumption.
      * destruct e as [|ins' e].
        -- rewrite app_nil_r in Hcl. subst cl. simpl in Hr. 
           destruct (all_res _ _ _ _ _ H Hp Hm (proj1 (IHCG1 i) Hp Hm w)) as (n & x & Hn).
           eapply conv_seq; [exact Hn|]. intros j ts Hj. injection Hj as <- <-.
           eapply (proj2 (IHCG2 (i + wds pre)) [] ins rest); auto; [exact I|rewrite Nat.add_0_r; exact Hno].
        -- simpl in Hr. injection Hr as <- ->.
           destruct (no_res _ _ _ i w _ _ _ H Hcl Hp Hi Hm Hno) as (n & x & Hn); [eapply (proj2 (IHCG1 i)); eassumption|].
           eapply conv_seq; [exact Hn|]. intros j ts Hj. discriminate.
  - (* plus *) destruct (star_head _ _ _ _ _ _ H) as (h & c' & -> & Hh); [eauto|]. split.
    + intro Hc. rewrite forallb_app in Hc. simpl in Hc. rewrite Hh, andb_false_r in Hc. discriminate.
    + intros pre ins rest Hc Hp Hi Hm Hno w. apply app_split in Hc. destruct Hc as [(e & -> & Hr)|(e & Hcl & Hr)].
      * exfalso. destruct e; simpl in Hr; injection Hr as -> _; [congruence|]. rewrite forallb_app in Hp. simpl in Hp. rewrite Hh, andb_false_r in Hp. discriminate.
      * destruct e as [|ins' e]; simpl in Hr; injection Hr as -> Hr; [congruence|]. subst rest.
        destruct (no_res _ _ _ i w _ _ _ H0 Hcl Hp Hi Hm Hno) as (n & x & Hn); [eapply (proj2 (IHCG2 i)); eassumption|].
        apply (conv_ext _ _ E (PSeq q (PStar q))); [intro; apply eval_plus|]. eapply conv_seq; [exact Hn|]. intros j ts Hj. discriminate.
  - (* opt *) eapply pc_imp; [|apply IHCG]. intros w. apply conv_ext. intro n. rewrite eval_opt, !eval_alt, get_ok. reflexivity.
  - (* cap full *) split.
    + intro Hc. rewrite forallb_app in Hc. simpl in Hc. rewrite andb_false_r in Hc. discriminate.
    + intros pre ins rest Hc Hp Hi Hm Hno w. apply app_split in Hc. destruct Hc as [(e & -> & Hr)|(e & Hcl & Hr)].
      * exfalso. destruct e; simpl in Hr; injection Hr as <- _; [discriminate|]. rewrite forallb_app in Hp. simpl in Hp. rewrite andb_false_r in Hp. discriminate.
      * destruct e as [|ins' e]; simpl in Hr; injection Hr as -> Hr; [discriminate|]. apply conv_cap. eapply (proj2 (IHCG i)); eassumption.
  - (* cap late *) split.
    + intro Hc. rewrite forallb_app in Hc. simpl in Hc. rewrite andb_false_r in Hc. discriminate.
    + intros pre' ins rest Hc Hp Hi Hm Hno w. apply app_split in Hc. destruct Hc as [(e & -> & Hr)|(e & -> & Hr)].
      * exfalso. destruct e; simpl in Hr; injection Hr as <- _; [discriminate|]. rewrite forallb_app in Hp. simpl in Hp. rewrite andb_false_r in Hp. discriminate.
      * destruct e as [|ins' e]; simpl in Hr; injection Hr as -> Hr; [discriminate|]. apply conv_cap.
        eapply (proj2 (IHCG i) pre' ins' (e ++ post)); try eassumption. rewrite <- app_assoc. reflexivity.
  - (* search *)
    eapply pc_imp; [|apply IHCG2]. intro w. apply search_grammar_conv; [|assumption].
    intros ins rest Hr Hi j Hno w'. eapply (no_res _ _ _ j w' [] ins rest H Hr eq_refl Hi I); [rewrite Nat.add_0_r; exact Hno|].
    eapply (proj2 (IHCG1 j) [] ins rest); auto; [exact I|]. rewrite Nat.add_0_r. exact Hno.
  - (* leaf *) eapply pc_imp; [|apply IHCG]. intro w. apply conv_inline with (thr := thr); assumption.
  - (* grammar *) 
    assert (Hcall : exists l c, code' = l :: c /\ charlike l = false).
    { match goal with Hr : resolved _ _ _ |- _ => destruct Hr as [Hlen Hr]; specialize (Hr 0); simpl in Hr; destruct Hr as (l & _ & Hr) end.
      match goal with Hr : _ \/ _ |- _ => destruct Hr as [Hr|[Hr _]]; destruct code' as [|i0 c0]; try discriminate; simpl in Hr; injection Hr as ->; do 2 eexists; split; reflexivity end. }
    destruct Hcall as (l & c & -> & Hl). simpl. split; [eapply pc_all_head; [reflexivity|exact Hl]|eapply pc_no_head; [reflexivity|exact Hl]].
  - apply pc_conv. intro. apply conv_class.
  - apply pc_conv. intro. apply conv_lit.
  - eapply pc_imp; [|apply IHCG]. intro w. apply conv_ext. intro. apply eval_inl.
  - apply pc_conv. intro. apply conv_dot.
  - apply pc_conv. intro. apply conv_empty.
Qed.
Lemma no_eval : forall E p c i w pre ins rest, CG E p c -> c = pre ++ ins :: rest -> forallb charlike pre = true -> charlike ins = true ->
  matches s pre i -> nomatch s ins (i + wds pre) -> exists n x, eval n E p i w = (Some RFail, w, x).
Proof. intros. eapply no_res; try eassumption. eapply (proj2 (pconv _ _ _ H i)); eassumption. Qed.
Lemma all_eval : forall E p c i w, CG E p c -> forallb charlike c = true -> matches s c i ->
  exists n x, eval n E p i w = (Some (RSucc (i + wds c) []), w, x).
Proof. intros. eapply all_res; try eassumption. apply (proj1 (pconv _ _ _ H i)); assumption. Qed.
End Conv.

(* ---------- machines that keep running ---------- *)
Section Div.
Variable bufsz : nat.
Hypothesis Hbuf : 0 < bufsz.
Variable T : Type.
Variable ops : table_ops T.
Variable CS : Type.
Variable check : nat -> CS -> list byte -> list byte -> nat -> Z -> Z -> CS * option nat.
Variable intrvl : option (nat * nat).
Variable s : list byte.
Variable P : program.
Variable thr : nat.
Variable MOK : Z -> env -> pattern -> Prop.
Variable TOK : Z -> env -> pattern -> Prop.
Hypothesis Hlabels : NoDup (labels P).
Hypothesis Hany : forall n, In (IAny n) P -> n = x01 \/ List.length s <= bufsz.
Hypothesis Hcheck : forall ck cs bs j id fl cs' n, check ck cs bs s j id fl = (cs', Some n) -> j <= List.length s -> j + n <= List.length s.
Notation world := (world CS).
Notation mstate := (mstate T CS).
Notation eval := (eval s check).
Notation CG := (CG thr MOK TOK).
Notation conv := (conv s CS check).
Notation reps1 := (reps1 CS check s).
Notation pr := (pr intrvl).
Notation stored := (stored intrvl).
Variable XB : nat -> nat -> Prop.
Hypothesis XB_mono : forall x F F', XB x F -> F <= F' -> XB x F'.
Hypothesis XB_down : forall x y F, XB x F -> y <= x -> XB y F.
Hypothesis XB_max : forall x y F, XB x F -> XB y F -> XB (Nat.max x y) F.
Hypothesis XB_le : forall x F, x <= S F -> XB x F.
Variable TI : T -> nat -> Prop.
Hypothesis TI_mono : forall t F F', TI t F -> F <= F' -> TI t F'.
Hypothesis H_sync : forall tbl F id i, TI tbl F -> i <= List.length s -> TI (snd (t_get ops tbl id i)) F.
Hypothesis H_get : forall tbl F id E q i w e, TI tbl F -> MOK id E q -> i <= List.length s -> fst (t_get ops tbl id i) = Some e ->
  exists n r x, eval n E q i w = (Some r, w, x) /\ XB x F /\
    match me_len e with
    | None => r = RFail
    | Some len => exists ts, r = RSucc (i + len) ts /\ flat (me_capt e) = pr ts
    end.
Hypothesis H_put_ok : forall tbl F id E q i n w j ts w' x cs, TI tbl F -> MOK id E q -> i <= List.length s ->
  eval n E q i w = (Some (RSucc j ts), w', x) -> XB x F -> flat cs = pr ts ->
  TI (t_put ops tbl id i (Some (j - i)) (Nat.max F j - i + 1) 1 (stored cs)) F.
Hypothesis H_put_fail : forall tbl F id E q i n w w' x pos, TI tbl F -> MOK id E q -> i <= List.length s ->
  eval n E q i w = (Some RFail, w', x) -> XB x F ->
  TI (t_put ops tbl id i None (Nat.max F pos - i + 1) 0 (stored [])) F.
Hypothesis H_tget : forall tbl F id E q i w e, TI tbl F -> TOK id E q -> i <= List.length s -> fst (t_get ops tbl id i) = Some e ->
  exists len ts x, me_len e = Some len /\ reps1 E q i w (i + len) w ts x /\ XB x F /\ flat (me_capt e) = pr ts.
Hypothesis H_tput : forall tbl F id E q i w j ts w' x cs cnt, TI tbl F -> TOK id E q -> i <= List.length s ->
  reps1 E q i w j w' ts x -> XB x F -> flat cs = pr ts ->
  TI (t_put ops tbl id i (Some (j - i)) (Nat.max F j - i + 1) cnt (stored cs)) F.
Notation step := (sym_step bufsz ops check intrvl P).
Notation at_ k i := (nth_error P k = Some i).

Definition prog (i : insn) : bool := match i with ICall _ | IJump _ | IPartialCommit _ => true | _ => false end.
(** at least [k] jumps or calls are ahead *)
Inductive al : nat -> mstate -> Prop :=
| al_0 : forall st, al 0 st
| al_prog : forall k st st' ins, at_ (m_ip st) ins -> prog ins = true -> step st = Next st' -> al k st' -> al (S k) st
| al_next : forall k st st', step st = Next st' -> al k st' -> al k st.
Lemma al_down : forall k st, al k st -> forall k', k' <= k -> al k' st.
Proof.
  intros k st H. induction H; intros k' Hk.
  - replace k' with 0 by lia. apply al_0.
  - destruct k' as [|k']; [apply al_0|]. eapply al_prog; try eassumption. apply IHal. lia.
  - eapply al_next; [eassumption|]. apply IHal. exact Hk.
Qed.
Lemma al_run : forall k st, al k st -> forall f r, run step f st = Some r -> k <= f.
Proof.
  intros k st H. induction H; intros f r Hr; [lia| |]; (destruct f as [|f]; [discriminate|]); cbn [run] in Hr.
  - rewrite H1 in Hr. apply IHal in Hr. lia.
  - rewrite H in Hr. apply IHal in Hr. lia.
Qed.
Definition XX (k : nat) (st : mstate) : Prop := ~ ~ al k st.
Lemma XX_inv : forall k st, 0 < k -> XX k st -> (exists l, nth_error P (m_ip st) = Some (ILabel l)) \/ nth_error P (m_ip st) = Some IReturn ->
  exists st', step st = Next st' /\ XX k st'.
Proof.
  intros k st Hk Hx Hi.
  assert (Hinv : al k st -> exists st', step st = Next st' /\ al k st').
  { intro H. inversion H; subst; [lia| |eauto]. destruct Hi as [(l & Hi)|Hi]; rewrite Hi in H0; injection H0 as <-; discriminate. }
  destruct (step st) as [st'| |] eqn:E.
  - exists st'. split; [reflexivity|]. intro Hn. apply Hx. intro H. destruct (Hinv H) as (st2 & E2 & H2). injection E2 as <-. exact (Hn H2).
  - exfalso. apply Hx. intro H. destruct (Hinv H) as (st2 & E2 & _). discriminate.
  - exfalso. apply Hx. intro H. destruct (Hinv H) as (st2 & E2 & _). discriminate.
Qed.
Definition QF : outcome -> mstate -> Prop := fun _ _ => False.
Notation wpd k := (wp bufsz T ops CS check intrvl P (XX k) QF).
Lemma wpd_XX : forall k st, wpd k st -> XX k st.
Proof.
  intros k st H. refine (wp_back bufsz T ops CS check intrvl P (XX k) QF (XX k) _ _ _ st H).
  - intros a b E Hb Hn. apply Hb. intro Ha. apply Hn. eapply al_next; eassumption.
  - intros a o b E [].
  - auto.
Qed.
Definition Gd (k : nat) := G bufsz T ops CS check intrvl s P TI (XX k) QF.
Definition FLd (k : nat) := FL bufsz T ops CS check intrvl s P TI (XX k) QF.
Lemma Gd_0 : forall ip i w stk base F, Gd 0 ip i w stk base F.
Proof. intros ip i w stk base F src tbl rng _ _. apply wp_stop. intro Hn. apply Hn. apply al_0. Qed.
(** cases that cannot be decided *)
Lemma Gd_em : forall (A : Prop) k ip i w stk base F, (A -> Gd k ip i w stk base F) -> (~ A -> Gd k ip i w stk base F) -> Gd k ip i w stk base F.
Proof.
  intros A k ip i w stk base F H1 H2 src tbl rng Hs Ht. apply wp_stop. intro Hn.
  assert (Ha : ~ A) by (intro a; exact (wpd_XX _ _ (H1 a src tbl rng Hs Ht) Hn)).
  exact (wpd_XX _ _ (H2 Ha src tbl rng Hs Ht) Hn).
Qed.
Lemma Gd_prog : forall k ip ins i w stk base F i' w' stk' base' F' ip', at_ ip ins -> prog ins = true ->
  (forall src tbl rng, srcok bufsz s src i F -> TI tbl F -> exists src' tbl' rng', srcok bufsz s src' i' F' /\ TI tbl' F' /\
     step (MS ip src stk base tbl (fst w) (snd w) rng) = Next (MS ip' src' stk' base' tbl' (fst w') (snd w') rng')) ->
  Gd k ip' i' w' stk' base' F' -> Gd (S k) ip i w stk base F.
Proof.
  intros k ip ins i w stk base F i' w' stk' base' F' ip' Hat Hp Hst H src tbl rng Hs Ht.
  destruct (Hst src tbl rng Hs Ht) as (src' & tbl' & rng' & Hs' & Ht' & E). apply wp_stop. intro Hn.
  apply (wpd_XX _ _ (H src' tbl' rng' Hs' Ht')). intro Ha. apply Hn. eapply al_prog; [exact Hat|exact Hp|exact E|exact Ha].
Qed.
Lemma Gd_call : forall k ip l i w stk base F, at_ ip (ICall l) ->
  Gd k (lbl_index P l) i w (SE (KRet (S ip)) [] :: stk) base F -> Gd (S k) ip i w stk base F.
Proof.
  intros k ip l i w stk base F Hp H. eapply Gd_prog; [exact Hp|reflexivity| |exact H].
  intros src tbl rng Hs Ht. exists src, tbl, rng. split; [exact Hs|]. split; [exact Ht|].
  unfold sym_step. cbn [m_ip]. rewrite Hp. reflexivity.
Qed.
Lemma Gd_jump : forall k ip l i w stk base F, at_ ip (IJump l) ->
  Gd k (lbl_index P l) i w stk base F -> Gd (S k) ip i w stk base F.
Proof.
  intros k ip l i w stk base F Hp H. eapply Gd_prog; [exact Hp|reflexivity| |exact H].
  intros src tbl rng Hs Ht. exists src, tbl, rng. split; [exact Hs|]. split; [exact Ht|].
  unfold sym_step. cbn [m_ip]. rewrite Hp. reflexivity.
Qed.
Lemma Gd_partial : forall k ip l b off cs i w stk base F, at_ ip (IPartialCommit l) ->
  Gd k (lbl_index P l) i w (SE (KBtrack b i) [] :: fst (add_capt cs stk base)) (snd (add_capt cs stk base)) F ->
  Gd (S k) ip i w (SE (KBtrack b off) cs :: stk) base F.
Proof.
  intros k ip l b off cs i w stk base F Hp H. eapply Gd_prog; [exact Hp|reflexivity| |exact H].
  intros src tbl rng Hs Ht. exists src, tbl, rng. split; [exact Hs|]. split; [exact Ht|].
  unfold sym_step. cbn [m_ip]. rewrite Hp. cbn [map_lbl exec_d]. cbn -[add_capt].
  destruct (add_capt cs stk base) as [k' b'] eqn:Ea. unfold mpos. cbn. rewrite (srcok_pos _ _ _ _ _ Hs). reflexivity.
Qed.

Notation code_at := (code_at P).
Notation env_ok := (env_ok P thr MOK TOK).
Definition div_at (k : nat) (E : env) (p : pattern) (c : program) : Prop :=
  forall L pre post ip i0 w stk base F, c = pre ++ post -> forallb charlike pre = true -> matches s pre i0 -> px pre i0 <= S F ->
    code_at L ip post -> env_ok E L -> i0 <= List.length s -> ~ conv E p i0 w -> ntop stk ->
    Gd k ip (i0 + wds pre) w stk base F.
Definition div0 (k : nat) (E : env) (p : pattern) (c : program) : Prop :=
  forall L ip i0 w stk base F, code_at L ip c -> env_ok E L -> i0 <= List.length s -> ~ conv E p i0 w -> ntop stk ->
    Gd k ip i0 w stk base F.
Lemma div_0 : forall k E p c, div_at k E p c -> div0 k E p c.
Proof.
  intros k E p c H L ip i0 w stk base F Hc He Hi Hev Hn.
  specialize (H L [] c ip i0 w stk base F eq_refl eq_refl I ltac:(simpl; lia) Hc He Hi Hev Hn). simpl in H. rewrite Nat.add_0_r in H. exact H.
Qed.
Lemma div_head : forall k E p ins c, charlike ins = false -> div0 k E p (ins :: c) -> div_at k E p (ins :: c).
Proof.
  intros k E p ins c Hi H L pre post ip i0 w stk base F Hc Hp Hm Hx Hat He Hle Hev Hn.
  destruct pre as [|i' pre].
  - simpl in Hc. subst post. simpl. rewrite Nat.add_0_r. eapply H; eassumption.
  - simpl in Hc. injection Hc as <- _. simpl in Hp. rewrite Hi in Hp. discriminate.
Qed.
Lemma div_imp : forall k E p E' p' c, (forall i w, i <= List.length s -> conv E' p' i w -> conv E p i w) ->
  (forall L, env_ok E L -> env_ok E' L) -> div_at k E' p' c -> div_at k E p c.
Proof.
  intros k E p E' p' c Hle Henv H L pre post ip i0 w stk base F Hc Hp Hmt Hx Hat He Hi Hev Hn.
  eapply H; try eassumption; [apply Henv; exact He|]. intro Hc'. apply Hev. apply Hle; assumption.
Qed.
Lemma div_conv : forall k E p c, (forall i w, conv E p i w) -> div_at k E p c.
Proof. intros k E p c H L pre post ip i0 w stk base F Hc Hp Hmt Hx Hat He Hi Hev. elim Hev. apply H. Qed.

(** the part of the code that does end *)
Notation contsd k := (conts bufsz T ops CS check intrvl s P XB TI (XX k) QF).
Lemma run0 : forall k n E p c, 0 < k -> CG E p c -> forall L ip i0 w r w' x stk base F,
    code_at L ip c -> env_ok E L -> i0 <= List.length s -> eval n E p i0 w = (Some r, w', x) -> ntop stk ->
    contsd k r w' x (ip + List.length c) stk base F -> Gd k ip i0 w stk base F.
Proof.
  intros k n E p c Hk HC.
  pose proof (frag bufsz Hbuf T ops CS check intrvl s P thr MOK TOK Hlabels Hany Hcheck XB XB_mono XB_down XB_max XB_le TI TI_mono H_sync H_get H_put_ok H_put_fail H_tget H_tput (XX k) (fun st => XX_inv k st Hk) n E p c HC) as FR.
  apply frag_0 in FR; [|exact Hbuf]. intros L ip i0 w r w' x stk base F. apply (FR L ip i0 w r w' x stk base QF F).
Qed.
Lemma run_at : forall k n E p c, 0 < k -> CG E p c -> forall L pre post ip i0 w r w' x stk base F, c = pre ++ post -> forallb charlike pre = true -> matches s pre i0 -> px pre i0 <= S F ->
    code_at L ip post -> env_ok E L -> i0 <= List.length s -> eval n E p i0 w = (Some r, w', x) -> ntop stk ->
    contsd k r w' x (ip + List.length post) stk base F -> Gd k ip (i0 + wds pre) w stk base F.
Proof.
  intros k n E p c Hk HC.
  pose proof (frag bufsz Hbuf T ops CS check intrvl s P thr MOK TOK Hlabels Hany Hcheck XB XB_mono XB_down XB_max XB_le TI TI_mono H_sync H_get H_put_ok H_put_fail H_tget H_tput (XX k) (fun st => XX_inv k st Hk) n E p c HC) as FR.
  intros L pre post ip i0 w r w' x stk base F. apply (FR L pre post ip i0 w r w' x stk base QF F).
Qed.

Notation code_at_app := (code_at_app bufsz Hbuf P).
Notation code_at_hd := (code_at_hd bufsz Hbuf P).
Notation code_at_head := (code_at_head bufsz Hbuf P).
Notation code_at_cons := (code_at_cons bufsz Hbuf P).
Notation resolved_code := (resolved_code bufsz Hbuf P).
Notation resolved_plain := (resolved_plain P).
Notation blocks_at := (blocks_at bufsz Hbuf P).
Notation eval_succ := (eval_succ bufsz Hbuf CS check s Hcheck).
Notation reps1_range := (reps1_range bufsz Hbuf CS check s Hcheck).
Notation len_byte := (len_byte bufsz Hbuf).
Ltac chd H A := apply code_at_hd in H; destruct H as [A H]; cbv iota in A.
Ltac capp H A := apply code_at_app in H; destruct H as [A H].
Ltac go_head := apply div_head; [reflexivity|]; intros L ip i0 w stk base F Hat He Hle Hev Hn.
Notation lbl_here := (lbl_here P Hlabels).

Lemma div_seq : forall k E l r cl cr, 0 < k -> CG E l cl -> div_at k E l cl -> div_at k E r cr -> div_at k E (PSeq l r) (cl ++ cr).
Proof.
  intros k E l rr cl cr Hk HCG Hl Hr L pre post ip i0 w stk base F Hc Hp Hm Hx Hat He Hle Hev Hn.
  apply app_split in Hc. destruct Hc as [(e & -> & Hcr)|(e & Hcl & ->)].
  - rewrite forallb_app in Hp. apply andb_true_iff in Hp. destruct Hp as [Hp1 Hp2]. apply matches_app in Hm. destruct Hm as [Hm1 Hm2].
    destruct (all_eval s CS check thr MOK TOK _ _ _ _ w HCG Hp1 Hm1) as (n & x & Hn1). rewrite px_app in Hx.
    rewrite wds_app, Nat.add_assoc. eapply (Hr L e post); try eassumption; try lia.
    + apply matches_len; assumption.
    + intro Hc. apply Hev. eapply conv_seq; [exact Hn1|]. intros j ts Hj. injection Hj as <- <-. exact Hc.
  - subst cl. apply code_at_app in Hat. destruct Hat as [Ha1 Ha2].
    apply (Gd_em (conv E l i0 w)).
    + intros (n & o & w1 & x1 & El). eapply (run_at k n E l _ Hk HCG L pre e); try eassumption; try reflexivity.
      destruct o; cbn [conts].
      * elim Hev. eapply conv_seq; [exact El|]. discriminate.
      * intros cs F' Hf HF Hx1. pose proof (eval_succ _ _ _ _ _ _ _ _ _ El Hle) as Hj.
        eapply (div_0 _ _ _ _ Hr); try eassumption; try lia; [|apply ntop_add; exact Hn].
        intro Hc. apply Hev. eapply conv_seq; [exact El|]. intros j' ts' Hj'. injection Hj' as <- <-. exact Hc.
      * elim Hev. eapply conv_seq; [exact El|]. discriminate.
    + intro Hd. eapply (Hl L pre e); try eassumption. reflexivity.
Qed.

Lemma div_alt : forall k E l r cl cr L1 L2, 0 < k -> CG E l cl -> div_at k E l cl -> div_at k E r cr ->
  div_at k E (PAlt l r) (IChoice L1 :: cl ++ [ICommit L2; ILabel L1] ++ cr ++ [ILabel L2]).
Proof.
  intros k E l rr cl cr L1 L2 Hk HCG Hl Hr. apply div_0 in Hl. apply div_0 in Hr. go_head.
  chd Hat A1. capp Hat A2. cbn [app] in Hat. chd Hat A3. chd Hat A3'. capp Hat A4. chd Hat A5. clear Hat.
  pose proof (lbl_here _ _ A3') as I1.
  eapply G_choice; [exact A1|]. apply (Gd_em (conv E l i0 w)).
  - intros (n & o & w1 & x1 & El). eapply (run0 k n E l _ Hk HCG); try eassumption; [exact I|].
    destruct o; cbn [conts].
    + intros F' HF Hx1. apply FL_btrack; [exact Hbuf|exact Hle|]. rewrite I1. eapply G_label; [exact A3'|].
      eapply Hr; try eassumption. intro Hc. apply Hev. eapply conv_alt; [exact El|]. intros _. exact Hc.
    + elim Hev. eapply conv_alt; [exact El|]. discriminate.
    + elim Hev. eapply conv_alt; [exact El|]. discriminate.
  - intro Hd. eapply Hl; try eassumption. exact I.
Qed.
Lemma div_alt_test : forall k E l r h cl g cr L1 L2 t, 0 < k -> CG E l (h :: cl) -> CG E r (g :: cr) ->
    test_of h L1 = Some t -> is_test_head g = true -> (forall b, cmatch h b = true -> cmatch g b = false) ->
  div_at k E l (h :: cl) -> div_at k E r (g :: cr) ->
  div_at k E (PAlt l r) (t :: cl ++ [IJump L2; ILabel L1] ++ (g :: cr) ++ [ILabel L2]).
Proof.
  intros k E l rr h cl g cr L1 L2 t Hk Cl Cr Ht Hg Hdis Hl Hr. apply div_0 in Hr.
  assert (Hch : charlike h = true) by (destruct h; try discriminate; reflexivity).
  assert (Hcg : charlike g = true) by (destruct g; try discriminate; reflexivity).
  apply div_head; [destruct h; try discriminate; injection Ht as <-; reflexivity|]; intros L ip i0 w stk base F Hat He Hle Hev Hn.
  assert (Htn : match t with IOpenCall _ => False | _ => True end) by (destruct h; try discriminate; injection Ht as <-; exact I).
  pose proof (code_at_head _ _ _ _ Hat Htn) as A1. chd Hat A1'. capp Hat A2. cbn [app] in Hat. chd Hat A3. chd Hat A3'.
  change (g :: cr ++ [ILabel L2]) with ((g :: cr) ++ [ILabel L2]) in Hat. capp Hat A4. clear Hat A1'.
  pose proof (lbl_here _ _ A3') as I1.
  eapply G_test; [exact Hbuf|exact TI_mono|exact Ht|exact A1| |].
  - intros b Hb Hm. replace (S i0) with (i0 + wds [h]) by (destruct h; try discriminate; rewrite wds_one; cbn [wd]; lia).
    eapply (Hl L [h] cl); try eassumption; try reflexivity.
    { simpl. rewrite Hch. reflexivity. } { split; [|exact I]. destruct h; try discriminate; exists b; auto. } { destruct h; try discriminate; simpl; lia. }
    intros (n & o & w1 & x1 & El). apply Hev. eapply conv_alt; [exact El|]. intros _.
    eapply (proj2 (pconv s CS check thr MOK TOK _ _ _ Cr i0) [] g cr); auto; [exact I|]. rewrite wds_nil, Nat.add_0_r. unfold nomatch. destruct g; try discriminate; rewrite Hb; auto.
  - intro Hno. destruct (no_eval s CS check thr MOK TOK _ _ _ i0 w [] h cl Cl) as (n & x & El); auto; [exact I|simpl; rewrite Nat.add_0_r; exact Hno|].
    rewrite I1. eapply G_label; [exact A3'|]. eapply Hr; try eassumption. intro Hc. apply Hev. eapply conv_alt; [exact El|]. auto.
Qed.

Lemma div_star : forall k E q sub L1 L2, 0 < k -> CG E q sub -> (forall k', k' <= k -> div_at k' E q sub) ->
  div_at k E (PStar q) ([IChoice L2; ILabel L1] ++ sub ++ [IPartialCommit L1; ILabel L2]).
Proof.
  intros k E q sub L1 L2 Hk HCG Hq. cbn [app]. go_head.
  chd Hat A1. chd Hat A2. capp Hat A3. chd Hat A4. chd Hat A5. clear Hat.
  pose proof (lbl_here _ _ A2) as I1. pose proof (lbl_here _ _ A5) as I2.
  eapply G_choice; [exact A1|]. rewrite I2.
  (* the loop *)
  assert (Hloop : forall m, m <= k -> forall i w stk base F, i <= List.length s -> ntop stk -> ~ conv E (PStar q) i w ->
    Gd m (S ip) i w (SE (KBtrack (S (S (S ip) + List.length sub)) i) [] :: stk) base F).
  2: { apply Hloop; auto. }
  clear Hev Hle Hn stk base F i0 w.
  induction m as [|m IH]; intros Hmk i w stk base F Hi Hn Hev; [apply Gd_0|].
  eapply G_label; [exact A2|]. apply (Gd_em (conv E q i w)).
  - intros (n & o & w1 & x1 & El). eapply (run0 (S m) n E q _ ltac:(lia) HCG); try eassumption; [exact I|].
    destruct o; cbn [conts].
    + elim Hev. eapply conv_star; [exact El|]. discriminate.
    + intros cs F' Hf HF Hx1. pose proof (eval_succ _ _ _ _ _ _ _ _ _ El Hi) as Hj. cbn [add_capt fst snd s_kind s_capt app].
      eapply Gd_partial; [exact A4|]. rewrite I1. apply IH; [lia|lia|apply ntop_add; exact Hn|].
      intro Hc. apply Hev. eapply conv_star; [exact El|]. intros j' ts' Hj'. injection Hj' as <- <-. exact Hc.
    + elim Hev. eapply conv_star; [exact El|]. discriminate.
  - intro Hd. eapply (div_0 _ _ _ _ (Hq (S m) Hmk)); try eassumption. exact I.
Qed.

Lemma reps_conv : forall E q i w j w1 us y, reps1 E q i w j w1 us y -> conv E (PStar q) j w1 -> conv E (PStar q) i w.
Proof.
  intros E q i w j w1 us y H Hc. induction H.
  - eapply conv_star; [exact H|]. intros j' ts' Hj. injection Hj as <- <-. exact Hc.
  - eapply conv_star; [exact H|]. intros j' ts' Hj. injection Hj as <- <-. apply IHreps1. exact Hc.
Qed.
Lemma div_star_tree : forall k E q q' id sub L1 L2 L3 L4 m, 0 < k -> CG E q' sub -> get q = PMemo q' id -> TOK m E q' -> (forall k', k' <= k -> div_at k' E q' sub) ->
  div_at k E (PStar q) ([ILabel L1; IMemoTreeOpen L3 m; IChoice L2] ++ sub ++
                    [ICommit L4; ILabel L4; IMemoTreeInsert; ILabel L3; IMemoTree; IJump L1;
                     ILabel L2; IMemoTreeClose m]).
Proof.
  intros k E q q' id sub L1 L2 L3 L4 m Hk HCG Hg Htok Hq. cbn [app]. go_head.
  chd Hat A1. chd Hat A2. chd Hat A3. capp Hat A4.
  chd Hat B1. chd Hat B2. chd Hat B3. chd Hat B4. chd Hat B5. chd Hat B6. chd Hat B7. chd Hat B8. clear Hat.
  pose proof (lbl_here _ _ A1) as I1. pose proof (lbl_here _ _ B7) as I2. pose proof (lbl_here _ _ B4) as I3. pose proof (lbl_here _ _ B2) as I4.
  set (e := S (S (S ip)) + List.length sub) in *.
  assert (Hev' : ~ conv E (PStar q') i0 w).
  { intro Hc. apply Hev. eapply conv_ext; [|exact Hc]. intro n. eapply star_memo. exact Hg. }
  clear Hev. rename Hev' into Hev.
  (* the loop *)
  assert (Hloop : forall l, l <= k -> forall i w1 tr ts x0 F', i <= List.length s -> F <= F' ->
    ~ conv E (PStar q') i w1 -> chain CS check intrvl s E q' m i0 w tr i w1 ts x0 -> XB x0 F' ->
    Gd l ip i w1 (tr ++ stk) base F').
  2: { change stk with ([] ++ stk). eapply (Hloop k (le_n k) i0 w [] [] 0); try eassumption; try lia; [apply ch_nil|apply XB_le; lia]. }
  induction l as [|l IH]; intros Hlk i w1 tr ts x0 F' Hi HF' Hd Hch Hx0; [apply Gd_0|].
  eapply G_label; [exact A1|]. eapply G_treeopen; [exact Hbuf|exact TI_mono|exact A2|]. intros tbl Ht.
  (* what happens after one more entry has been pushed *)
  assert (Hmore : forall j w2 us y cs cnt F'', reps1 E q' i w1 j w2 us y -> flat cs = pr us -> F' <= F'' -> XB y F'' ->
     Gd (S l) (S (S (S e))) j w2 (SE (KTree m i cnt) cs :: tr ++ stk) base F'').
  { intros j w2 us y cs cnt F'' Hreps Hf HF'' Hy. eapply G_label; [exact B4|].
    change (SE (KTree m i cnt) cs :: tr ++ stk) with ((SE (KTree m i cnt) cs :: tr) ++ stk).
    assert (Hch' : chain CS check intrvl s E q' m i0 w (SE (KTree m i cnt) cs :: tr) j w2 (ts ++ us) (Nat.max x0 y)) by (econstructor; eassumption).
    assert (Hxy : XB (Nat.max x0 y) F'') by eauto.
    eapply (G_tree bufsz Hbuf T ops CS check intrvl s P MOK TOK XB XB_down TI H_put_ok H_put_fail H_tput (XX (S l)) (fun st => XX_inv (S l) st (Nat.lt_0_succ l))); try eassumption; [simpl; lia|]. intros tr' Hch''.
    eapply Gd_jump; [exact B6|]. rewrite I1.
    eapply IH; try eassumption; try lia.
    - eapply reps1_range; eassumption.
    - intro Hc. apply Hd. eapply reps_conv; eassumption. }
  split; [apply H_sync; assumption|]. destruct (fst (t_get ops tbl m i)) as [ent|] eqn:Eg.
  - destruct (H_tget _ _ _ _ _ _ w1 _ Ht Htok Hi Eg) as (len & us & y & H1 & H2 & H3 & H4). destruct ent as [ml cnt cs]. cbn [me_len me_capt] in *. subst ml.
    pose proof (reps1_range _ _ _ _ _ _ _ _ H2 Hi) as Hj. split; [lia|]. rewrite I3. eapply Hmore; try eassumption; [lia|]. eapply XB_mono; [exact H3|lia].
  - eapply G_choice; [exact A3|]. rewrite I2. apply (Gd_em (conv E q' i w1)).
    + intros (n & o & w2 & x2 & El). eapply (run0 (S l) n E q' _ ltac:(lia) HCG); try eassumption; [exact I|].
      destruct o; cbn [conts].
      * elim Hd. eapply conv_star; [exact El|]. discriminate.
      * intros cs F'' Hf HF'' Hx2. cbn [add_capt fst snd s_kind s_capt app].
        eapply G_commit; [exact B1|]. cbn [s_capt add_capt fst snd s_kind app]. rewrite I4. eapply G_label; [exact B2|].
        pose proof (r1_one CS check s _ _ _ _ _ _ _ _ _ El) as Hr1.
        eapply G_treeinsert; [exact B3| |].
        -- intros tbl' Ht'. eapply H_tput; try eassumption.
        -- eapply Hmore; eassumption.
      * elim Hd. eapply conv_star; [exact El|]. discriminate.
    + intro Hdd. eapply (div_0 _ _ _ _ (Hq (S l) Hlk)); try eassumption. exact I.
Qed.

Lemma div_not : forall k E q sub L1, div_at k E q sub -> div_at k E (PNot q) ([IChoice L1] ++ sub ++ [IFailTwice; ILabel L1]).
Proof.
  intros k E q sub L1 Hq. apply div_0 in Hq. cbn [app]. go_head. chd Hat A1. capp Hat A2.
  eapply G_choice; [exact A1|]. eapply Hq; try eassumption; [|exact I]. intro Hc. apply Hev. apply conv_not. exact Hc.
Qed.
Lemma div_and : forall k E q sub L1 L2, div_at k E q sub -> div_at k E (PAnd q) ([IChoice L1] ++ sub ++ [IBackCommit L2; ILabel L1; IFail; ILabel L2]).
Proof.
  intros k E q sub L1 L2 Hq. apply div_0 in Hq. cbn [app]. go_head. chd Hat A1. capp Hat A2.
  eapply G_choice; [exact A1|]. eapply Hq; try eassumption; [|exact I]. intro Hc. apply Hev. apply conv_and. exact Hc.
Qed.
Lemma div_cap : forall k E q id sub, div_at k E q sub -> div_at k E (PCap q id) (ICaptureBegin id :: sub ++ [ICaptureEnd]).
Proof.
  intros k E q id sub Hq. apply div_0 in Hq. go_head. chd Hat A1. capp Hat A2.
  eapply G_capbegin; [exact A1|]. eapply Hq; try eassumption; [|exact I]. intro Hc. apply Hev. apply conv_cap. exact Hc.
Qed.
Lemma run_chars_d : forall k E p c e rest L pre ip i0 w stk base F, CG E p c -> c = pre ++ e ++ rest -> forallb charlike pre = true -> forallb charlike e = true ->
  code_at L ip e -> matches s pre i0 -> px pre i0 <= S F -> ~ conv E p i0 w ->
  (forall F', matches s (pre ++ e) i0 -> F <= F' -> px (pre ++ e) i0 <= S F' -> Gd k (ip + List.length e) (i0 + wds (pre ++ e)) w stk base F') ->
  Gd k ip (i0 + wds pre) w stk base F.
Proof.
  intros k E p c e rest L pre ip i0 w stk base F HC -> Hp He Hat Hm Hx Hev H.
  eapply (run_chars bufsz Hbuf T ops CS check intrvl s P); try eassumption.
  intros F' p1 ins rest' -> H1 H2 H3 H4. exfalso. apply Hev. rewrite forallb_app in He. simpl in He. apply andb_true_iff in He. destruct He as [Hp1 Hi]. apply andb_true_iff in Hi. destruct Hi as [Hi _].
  eapply (proj2 (pconv s CS check thr MOK TOK _ _ _ HC i0) (pre ++ p1) ins (rest' ++ rest)); auto.
  { rewrite <- !app_assoc. reflexivity. } rewrite forallb_app, Hp. exact Hp1.
Qed.
Lemma div_chars : forall k E p c, CG E p c -> forallb charlike c = true -> div_at k E p c.
Proof.
  intros k E p c HC Hall L pre post ip i0 w stk base F Hc Hp Hm Hx Hat He Hle Hev Hn. subst c.
  rewrite forallb_app in Hall. apply andb_true_iff in Hall. destruct Hall as [_ Hpost].
  eapply (run_chars_d k E p _ post []); try eassumption; [rewrite app_nil_r; reflexivity|].
  intros F' H1 H2 H3. elim Hev. destruct (all_eval s CS check thr MOK TOK _ _ _ i0 w HC) as (n & x & El); [rewrite forallb_app, Hp; exact Hpost|exact H1|].
  do 4 eexists. exact El.
Qed.
Lemma div_cap_full : forall k E q id sub, CG E q sub -> forallb charlike sub = true -> wds sub < 256 ->
  div_at k E (PCap q id) (sub ++ [ICaptureFull (N2b (N.of_nat (wds sub))) id]).
Proof.
  intros k E q id sub HC Hall Hlen L pre post ip i0 w stk base F Hc Hp Hm Hx Hat He Hle Hev Hn.
  apply split_at in Hc; [|exact Hp|reflexivity]. destruct Hc as (e & -> & ->).
  capp Hat A1. chd Hat A2. clear Hat.
  assert (Hev' : ~ conv E q i0 w) by (intro Hc; apply Hev; apply conv_cap; exact Hc).
  pose proof Hall as Hall'. rewrite forallb_app in Hall'. apply andb_true_iff in Hall'. destruct Hall' as [_ Hae].
  eapply (run_chars_d k E q _ e []); try eassumption; [rewrite app_nil_r; reflexivity|].
  intros F' H1 H2 H3. elim Hev'. destruct (all_eval s CS check thr MOK TOK _ _ _ i0 w HC Hall H1) as (n & x & El).
  do 4 eexists. exact El.
Qed.
Lemma div_cap_late : forall k E q id pre0 post0, CG E q (pre0 ++ post0) -> forallb charlike pre0 = true -> wds pre0 < 256 ->
  div_at k E q (pre0 ++ post0) ->
  div_at k E (PCap q id) (pre0 ++ [ICaptureLate (N2b (N.of_nat (wds pre0))) id] ++ post0 ++ [ICaptureEnd]).
Proof.
  intros k E q id pre0 post0 HC Hall Hlen Hq L pre post ip i0 w stk base F Hc Hp Hm Hx Hat He Hle Hev Hn.
  cbn [app] in Hc. apply split_at in Hc; [|exact Hp|reflexivity]. destruct Hc as (e & -> & ->).
  capp Hat A1. chd Hat A2. capp Hat A3. chd Hat A4. clear Hat.
  assert (Hev' : ~ conv E q i0 w) by (intro Hc; apply Hev; apply conv_cap; exact Hc).
  pose proof Hall as Hall'. rewrite forallb_app in Hall'. apply andb_true_iff in Hall'. destruct Hall' as [_ Hae].
  eapply (run_chars_d k E q _ e post0); try eassumption; [rewrite <- app_assoc; reflexivity|].
  intros F' H1 H2 H3. eapply G_caplate; [exact A2|]. rewrite len_byte by exact Hlen.
  replace (i0 + wds (pre ++ e) - wds (pre ++ e)) with i0 by lia.
  eapply (Hq L (pre ++ e) post0); try eassumption; try reflexivity.
Qed.
Lemma div_memo : forall k E q id sub L1, MOK id E q -> div_at k E q sub -> div_at k E (PMemo q id) ([IMemoOpen L1 id] ++ sub ++ [IMemoClose; ILabel L1]).
Proof.
  intros k E q id sub L1 Hok Hq. apply div_0 in Hq. cbn [app]. go_head. chd Hat A1. capp Hat A2.
  assert (Hev' : ~ conv E q i0 w) by (intro Hc; apply Hev; apply conv_memo; exact Hc).
  eapply G_memoopen; [exact Hbuf|exact A1|]. intros tbl Ht. split; [apply H_sync; assumption|]. destruct (fst (t_get ops tbl id i0)) as [ent|] eqn:Eg.
  - destruct (H_get _ _ _ _ _ _ w _ Ht Hok Hle Eg) as (n' & r' & x' & H1 & _). elim Hev'. do 4 eexists. exact H1.
  - eapply Hq; try eassumption. exact I.
Qed.
Lemma div_check : forall k E q ck id flag sub L1, div_at k E q sub ->
  div_at k E (PCheck q ck id flag) ([ICheckBegin id flag] ++ sub ++ [ICheckEnd ck; ILabel L1]).
Proof.
  intros k E q ck id flag sub L1 Hq. apply div_0 in Hq. cbn [app]. go_head. chd Hat A1. capp Hat A2.
  eapply G_checkbegin; [exact A1|]. eapply Hq; try eassumption; [|exact I]. intro Hc. apply Hev. apply conv_check. exact Hc.
Qed.
Lemma div_err : forall k E m q c, div_at k E q c -> div_at k E (PError m (Some q)) (IError m :: c).
Proof.
  intros k E m q c Hq. apply div_0 in Hq. go_head. chd Hat A1.
  eapply G_error; [exact A1|]. eapply Hq; try eassumption. intro Hc. apply Hev. apply conv_error. exact Hc.
Qed.

Lemma div_call : forall k E x L ip i0 w b stk base F, (forall p c, CG E p c -> div_at k E p c) ->
  code_at L ip [IOpenCall x] -> env_ok E L -> (forall Fr E', E = Fr :: E' -> assoc Fr x = Some b) -> i0 <= List.length s ->
  ~ conv E b i0 w -> ntop stk -> Gd (S k) ip i0 w stk base F.
Proof.
  intros k E x L ip i0 w b stk base F Hfrag Hat He Hb Hle Hev Hn.
  specialize (Hat 0 _ eq_refl). cbv iota beta in Hat. rewrite Nat.add_0_r in Hat. destruct Hat as (l & HL & Hat).
  destruct (He _ _ HL) as (Fr & E' & b' & fn & HE & Hb' & HC & Hlbl & Hcode). rewrite (Hb _ _ HE) in Hb'. injection Hb' as <-.
  pose proof (div_0 _ _ _ _ (Hfrag _ _ HC)) as Hq. capp Hcode B1. chd Hcode B2. clear Hcode.
  destruct Hat as [Hat|[Hat Ht]].
  - eapply Gd_call; [exact Hat|]. eapply G_label; [exact Hlbl|]. eapply Hq; try eassumption. exact I.
  - eapply Gd_jump; [exact Hat|]. eapply G_label; [exact Hlbl|]. eapply Hq; eassumption.
Qed.
Lemma div_nt : forall k E x, (forall E p c, CG E p c -> div_at k E p c) -> div_at (S k) E (PNonTerm x None) [IOpenCall x].
Proof.
  intros k E nm IH. go_head.
  pose proof Hat as Hat'. specialize (Hat' 0 _ eq_refl). cbv iota beta in Hat'. destruct Hat' as (l & HL & _).
  destruct (He _ _ HL) as (Fr & E' & b' & fn & HE & Hb' & _). subst E.
  eapply (div_call k (Fr :: E') nm L ip i0 w b'); try eassumption; [apply IH| |].
  - intros Fr' E'' HE. injection HE as <- <-. exact Hb'.
  - intro Hc. apply Hev. eapply conv_nt; [|exact Hc]. cbn [lookup]. rewrite Hb'. reflexivity.
Qed.
Lemma div_leaf : forall k E defs st b c, sdok defs -> assoc (inline_all thr defs) st = Some b -> div_at k (inline_all thr defs :: E) b c -> no_open c ->
  div_at k E (PGrammar defs st) c.
Proof.
  intros k E defs st b c Hd Hb Hq Hno L pre post ip i0 w stk base F Hc Hp Hm Hx Hat He Hle Hev Hn.
  eapply (Hq (fun _ => None)); try eassumption.
  - eapply code_at_plain; [|exact Hat]. intros y Hy. apply (Hno y). subst c. apply in_or_app. right. exact Hy.
  - intros y l H. discriminate.
  - intro Hcv. apply Hev. eapply conv_inline; eassumption.
Qed.
Lemma div_grammar : forall k E defs st LEnd blocks code', (forall E p c, CG E p c -> div_at k E p c) -> sdok defs ->
    (forall b, In b blocks -> assoc (inline_all thr defs) (b_name b) = Some (b_patt b)) ->
    (forall b, In b blocks -> CG (inline_all thr defs :: E) (b_patt b) (b_code b)) ->
    resolved (blk_lbls blocks) ([IOpenCall st; IJump LEnd] ++ List.concat (map blk blocks)) code' ->
    div_at (S k) E (PGrammar defs st) (code' ++ [ILabel LEnd]).
Proof.
  intros k E defs st LEnd blocks code' IH Hd Hb HC Hres L pre post ip i0 w stk base F Hc Hp Hm Hx Hat He Hle Hev Hn.
  assert (Hpre : pre = []).
  { destruct pre as [|i1 pre]; [reflexivity|]. exfalso. destruct Hres as [Hl Hr]. specialize (Hr 0). simpl in Hr.
    destruct code' as [|c0 code']; [simpl in Hl; discriminate|]. simpl in Hc. injection Hc as <- _. simpl in Hr.
    destruct Hr as (l & _ & [Hr|[Hr _]]); injection Hr as ->; simpl in Hp; discriminate. }
  subst pre. simpl in Hc. subst post. rewrite wds_nil, Nat.add_0_r. clear Hp Hm Hx.
  capp Hat A. chd Hat AE. clear Hat.
  pose proof (resolved_plain _ _ _ _ _ Hres A) as Hplain. pose proof (resolved_code _ _ _ _ Hres Hplain) as Hcode.
  cbn [app] in Hcode. apply code_at_cons in Hcode. destruct Hcode as [Hcall Hcode]. chd Hcode AJ.
  assert (Henv : env_ok (inline_all thr defs :: E) (assoc (blk_lbls blocks))).
  { intros y l Hy. destruct (assoc_lbls _ _ _ Hy) as (b & Hin & Hn1 & Hl1). destruct (blocks_at _ _ _ _ Hcode Hin) as (o & Ho & Hco).
    rewrite Hl1 in Ho. pose proof (lbl_here _ _ Ho) as Io. exists (inline_all thr defs), E, (b_patt b), (b_code b).
    rewrite Io. repeat split; auto. rewrite <- Hn1. apply Hb. exact Hin. }
  assert (Hst : exists b, assoc (inline_all thr defs) st = Some b).
  { specialize (Hcall 0 _ eq_refl). cbv iota beta in Hcall. destruct Hcall as (l & Hl & _). destruct (Henv _ _ Hl) as (F1 & E1 & b1 & fn & HE & Hb1 & _).
    injection HE as <- <-. eauto. }
  destruct Hst as (b & Est).
  eapply (div_call k _ st (assoc (blk_lbls blocks)) ip i0 w b); try eassumption.
  - apply IH.
  - intros Fr E' HE. injection HE as <- <-. exact Est.
  - intro Hcv. apply Hev. eapply conv_inline; eassumption.
Qed.

Theorem div : forall k E p c, CG E p c -> div_at k E p c.
Proof.
  induction k as [|k IHk].
  - intros E p c H L pre post ip i0 w stk base F _ _ _ _ _ _ _ _ _. apply Gd_0.
  - assert (IHle : forall E q sub, CG E q sub -> div_at (S k) E q sub -> forall k', k' <= S k -> div_at k' E q sub).
    { intros E q sub HC H k' Hk. destruct (Nat.eq_dec k' (S k)) as [->|Hne]; [exact H|].
      intros L pre post ip i0 w stk base F H1 H2 H3 H4 H5 H6 H7 H8 H9 src tbl rng Hs Ht. apply wp_stop.
      pose proof (wpd_XX _ _ (IHk E q sub HC L pre post ip i0 w stk base F H1 H2 H3 H4 H5 H6 H7 H8 H9 src tbl rng Hs Ht)) as HX.
      intro Hn. apply HX. intro Ha. apply Hn. eapply al_down; [exact Ha|lia]. }
    intros E p c H. induction H.
    + eapply div_imp; [|intros L HL; exact HL|exact IHCG]. intros i w _. apply conv_get.
    + apply div_conv. intros. eapply conv_alt_set. eassumption.
    + apply div_alt; try assumption. lia.
    + eapply div_alt_test; try eassumption. lia.
    + apply div_seq; try assumption. lia.
    + apply div_conv. intros. apply (conv_ext _ _ _ _ _ E (PStar (PClass set))); [|apply conv_star_class].
      intro n. rewrite <- star_get. rewrite H. reflexivity.
    + eapply div_star_tree; try eassumption; [lia|]. apply IHle; assumption.
    + apply div_star; [lia|assumption|]. apply IHle; assumption.
    + eapply div_imp; [|intros L HL; exact HL|apply (div_seq (S k) E q (PStar (get q))); try eassumption; lia].
      intros i w _. apply conv_ext. intro n. rewrite eval_plus, !eval_seq. apply ebind_cong; [reflexivity|]. intros. symmetry. apply star_get.
    + apply div_conv. intros. apply (conv_ext _ _ _ _ _ E (PAlt (PLit [b]) PEmpty)).
      * intro n. rewrite eval_opt, !eval_alt, <- H, get_ok. reflexivity.
      * destruct (conv_lit s CS check E [b] i w) as (n & o & w1 & x & Hn). eapply conv_alt; [exact Hn|]. intros _. apply conv_empty.
    + apply div_conv. intros. apply (conv_ext _ _ _ _ _ E (PAlt (PClass s0) PEmpty)).
      * intro n. rewrite eval_opt, !eval_alt, <- H, get_ok. reflexivity.
      * destruct (conv_class s CS check E s0 i w) as (n & o & w1 & x & Hn). eapply conv_alt; [exact Hn|]. intros _. apply conv_empty.
    + eapply div_imp; [|intros L HL; exact HL|exact IHCG]. intros i w _. apply conv_ext. intro n. rewrite eval_opt, !eval_alt, get_ok. reflexivity.
    + apply div_not. assumption.
    + apply div_and. assumption.
    + apply div_cap. assumption.
    + apply div_cap_full; assumption.
    + apply div_cap_late; assumption.
    + apply div_memo; assumption.
    + apply div_check. assumption.
    + eapply div_imp; [|intros L HL; exact HL|exact IHCG2]. intros i w _. apply search_grammar_conv; [|assumption].
      intros ins rest Hr Hi j Hno w'. eapply (no_eval s CS check thr MOK TOK _ _ _ j w' [] ins rest H Hr eq_refl Hi I). rewrite Nat.add_0_r. exact Hno.
    + apply div_conv. intros. apply conv_emptyop.
    + eapply div_leaf; eassumption.
    + eapply div_grammar; eassumption.
    + apply div_conv. intros. apply conv_class.
    + apply div_conv. intros. apply conv_lit.
    + apply div_nt. assumption.
    + eapply div_imp; [|intros L HL; exact HL|exact IHCG]. intros i w _. apply conv_ext. intro. apply eval_inl.
    + apply div_conv. intros. apply conv_dot.
    + apply div_conv. intros i w. exists 0. rewrite eval_error_none. do 3 eexists. reflexivity.
    + apply div_err. assumption.
    + apply div_conv. intros. apply conv_empty.
Qed.
End Div.
