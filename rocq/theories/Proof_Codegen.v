(** A declarative description of the compiler's output (relation CG), and facts about the
    leading byte tests of generated code. *)
From Verif Require Import Base Model_Charset Proof_Charset Model_Isa Model_Capture Model_VM Model_Pattern Spec_Peg Spec_Scope Proof_Eval Proof_Get Proof_Inline.
Local Open Scope nat_scope.
Arguments Nat.max : simpl never.

(** instructions that test and consume a fixed number of bytes *)
Definition charlike (i : insn) : bool := match i with IChar _ | ISet _ => true | IAny n => negb (byte_eqb n x00) | _ => false end.
Definition wd (i : insn) : nat := match i with IAny n => N.to_nat (bN n) | _ => 1 end.
Definition wds (c : program) : nat := list_sum (map wd c).
Lemma wds_nil : wds [] = 0. Proof. reflexivity. Qed.
Lemma wds_cons : forall i c, wds (i :: c) = wd i + wds c. Proof. reflexivity. Qed.
Lemma wds_one : forall i, wds [i] = wd i. Proof. intro i. unfold wds. simpl. lia. Qed.
Lemma wds_app : forall a b, wds (a ++ b) = wds a + wds b.
Proof. intros. unfold wds. rewrite map_app, list_sum_app. reflexivity. Qed.
Definition cmatch (i : insn) (b : byte) : bool :=
  match i with IChar c => byte_eqb c b | ISet s => cs_has s b | _ => true end.
Definition test_of (i : insn) (L : nat) : option insn :=
  match i with IChar a => Some (ITestCharNoChoice a L) | ISet s => Some (ITestSetNoChoice s L) | _ => None end.
Definition is_test_head (i : insn) : bool := match i with IChar _ | ISet _ => true | _ => false end.

Definition skip_of (c : program) : option cset :=
  match c with
  | IChar b :: _ => Some (cs_compl (cs_new [b]))
  | ISet s :: _ => if cs_size s <? 10 then Some (cs_compl s) else None
  | _ => None
  end.

Definition no_open (c : program) : Prop := forall x, ~ In (IOpenCall x) c.
Definition tailp (P : program) (u : nat) : Prop :=
  exists v, u <= v /\ nth_error P v = Some IReturn /\ forall z, u <= z < v -> exists l, nth_error P z = Some (ILabel l).
(** [code'] is [code] with calls resolved by [lbls] *)
Definition resolved (lbls : list (string * nat)) (code code' : program) : Prop :=
  List.length code = List.length code' /\
  forall t, match nth_error code t with
            | Some (IOpenCall x) => exists l, assoc lbls x = Some l /\
                 (nth_error code' t = Some (ICall l) \/ nth_error code' t = Some (IJump l) /\ tailp code' (S t))
            | o => nth_error code' t = o
            end.

Record block := Block { b_name : string; b_lbl : nat; b_patt : pattern; b_code : program }.
Definition blk (b : block) : program := ILabel (b_lbl b) :: b_code b ++ [IReturn].
Definition blk_lbls (bs : list block) : list (string * nat) := map (fun b => (b_name b, b_lbl b)) bs.

Section CG.
Variable thr : nat.
Variable MOK : Z -> env -> pattern -> Prop.
Variable TOK : Z -> env -> pattern -> Prop.

Inductive CG : env -> pattern -> program -> Prop :=
| cg_get : forall E p c, CG E (get p) c -> CG E p c
| cg_alt_set : forall E l r set, combine (get l) (get r) = Some set -> CG E (PAlt l r) [ISet set]
| cg_alt : forall E l r cl cr L1 L2, CG E l cl -> CG E r cr ->
    CG E (PAlt l r) (IChoice L1 :: cl ++ [ICommit L2; ILabel L1] ++ cr ++ [ILabel L2])
| cg_alt_test : forall E l r h cl g cr L1 L2 t, CG E l (h :: cl) -> CG E r (g :: cr) ->
    test_of h L1 = Some t -> is_test_head g = true -> (forall b, cmatch h b = true -> cmatch g b = false) ->
    CG E (PAlt l r) (t :: cl ++ [IJump L2; ILabel L1] ++ (g :: cr) ++ [ILabel L2])
| cg_seq : forall E l r cl cr, CG E l cl -> CG E r cr -> CG E (PSeq l r) (cl ++ cr)
| cg_star_span : forall E q set, get q = PClass set -> CG E (PStar q) [ISpan set]
| cg_star_tree : forall E q q' id sub L1 L2 L3 L4 m, get q = PMemo q' id -> CG E q' sub -> TOK m E q' ->
    CG E (PStar q) ([ILabel L1; IMemoTreeOpen L3 m; IChoice L2] ++ sub ++
                    [ICommit L4; ILabel L4; IMemoTreeInsert; ILabel L3; IMemoTree; IJump L1;
                     ILabel L2; IMemoTreeClose m])
| cg_star : forall E q sub L1 L2, (forall q' id, get q <> PMemo q' id) -> CG E q sub ->
    CG E (PStar q) ([IChoice L2; ILabel L1] ++ sub ++ [IPartialCommit L1; ILabel L2])
| cg_plus : forall E q cs cq, CG E (PStar (get q)) cs -> CG E q cq -> CG E (PPlus q) (cq ++ cs)
| cg_opt_char : forall E q b L1, get q = PLit [b] -> CG E (POpt q) [ITestCharNoChoice b L1; ILabel L1]
| cg_opt_set : forall E q s L1, get q = PClass s -> CG E (POpt q) [ITestSetNoChoice s L1; ILabel L1]
| cg_opt : forall E q c, CG E (PAlt (get q) PEmpty) c -> CG E (POpt q) c
| cg_not : forall E q sub L1, CG E q sub -> CG E (PNot q) ([IChoice L1] ++ sub ++ [IFailTwice; ILabel L1])
| cg_and : forall E q sub L1 L2, CG E q sub ->
    CG E (PAnd q) ([IChoice L1] ++ sub ++ [IBackCommit L2; ILabel L1; IFail; ILabel L2])
| cg_cap_begin : forall E q id sub, CG E q sub -> CG E (PCap q id) (ICaptureBegin id :: sub ++ [ICaptureEnd])
| cg_cap_full : forall E q id sub, CG E q sub -> forallb charlike sub = true -> wds sub < 256 -> sub <> [] ->
    CG E (PCap q id) (sub ++ [ICaptureFull (N2b (N.of_nat (wds sub))) id])
| cg_cap_late : forall E q id pre post, CG E q (pre ++ post) -> forallb charlike pre = true -> wds pre < 256 -> pre <> [] ->
    CG E (PCap q id) (pre ++ [ICaptureLate (N2b (N.of_nat (wds pre))) id] ++ post ++ [ICaptureEnd])
| cg_memo : forall E q id sub L1, MOK id E q -> CG E q sub ->
    CG E (PMemo q id) ([IMemoOpen L1 id] ++ sub ++ [IMemoClose; ILabel L1])
| cg_check : forall E q ck id flag sub L1, CG E q sub ->
    CG E (PCheck q ck id flag) ([ICheckBegin id flag] ++ sub ++ [ICheckEnd ck; ILabel L1])
| cg_search : forall E q csub c, CG E q csub -> ~ In "S"%string (free_nts q) ->
    CG E (search_grammar q (skip_of csub)) c -> CG E (PSearch q) c
| cg_emptyop : forall E op, CG E (PEmptyOp op) [IEmpty op]
| cg_grammar_leaf : forall E defs st b c, sdok defs -> assoc (inline_all thr defs) st = Some b ->
    CG (inline_all thr defs :: E) b c -> no_open c -> CG E (PGrammar defs st) c
| cg_grammar : forall E defs st LEnd blocks code', sdok defs ->
    (forall b, In b blocks -> assoc (inline_all thr defs) (b_name b) = Some (b_patt b)) ->
    (forall b, In b blocks -> CG (inline_all thr defs :: E) (b_patt b) (b_code b)) ->
    resolved (blk_lbls blocks) ([IOpenCall st; IJump LEnd] ++ List.concat (map blk blocks)) code' ->
    CG E (PGrammar defs st) (code' ++ [ILabel LEnd])
| cg_class : forall E s, CG E (PClass s) [ISet s]
| cg_lit : forall E str, CG E (PLit str) (map IChar str)
| cg_nt : forall E x, CG E (PNonTerm x None) [IOpenCall x]
| cg_inl : forall E x q c, CG E q c -> CG E (PNonTerm x (Some q)) c
| cg_dot : forall E n, n <> x00 -> CG E (PDot n) [IAny n]
| cg_err_none : forall E m, CG E (PError m None) [IError m; IEnd true]
| cg_err : forall E m q c, CG E q c -> CG E (PError m (Some q)) (IError m :: c)
| cg_empty : forall E, CG E PEmpty [].
End CG.

Lemma CG_mono : forall thr (M1 M2 T1 T2 : Z -> env -> pattern -> Prop),
  (forall id E q, M1 id E q -> M2 id E q) -> (forall id E q, T1 id E q -> T2 id E q) ->
  forall E p c, CG thr M1 T1 E p c -> CG thr M2 T2 E p c.
Proof.
  intros thr M1 M2 T1 T2 HM HT E p c H. induction H.
  - apply cg_get; auto.
  - apply cg_alt_set; auto.
  - apply cg_alt; auto.
  - eapply cg_alt_test; eauto.
  - apply cg_seq; auto.
  - apply cg_star_span; auto.
  - eapply cg_star_tree; eauto.
  - apply cg_star; auto.
  - apply cg_plus; auto.
  - apply cg_opt_char; auto.
  - apply cg_opt_set; auto.
  - apply cg_opt; auto.
  - apply cg_not; auto.
  - apply cg_and; auto.
  - apply cg_cap_begin; auto.
  - apply cg_cap_full; auto.
  - apply cg_cap_late; auto.
  - apply cg_memo; auto.
  - apply cg_check; auto.
  - eapply cg_search; eauto.
  - apply cg_emptyop; auto.
  - eapply cg_grammar_leaf; eauto.
  - eapply cg_grammar; eauto.
  - apply cg_class.
  - apply cg_lit.
  - apply cg_nt.
  - apply cg_inl; auto.
  - apply cg_dot; assumption.
  - apply cg_err_none.
  - apply cg_err; auto.
  - apply cg_empty.
Qed.

Section Prefix.
Variable s : list byte.
Variable CS : Type.
Variable check : nat -> CS -> list byte -> list byte -> nat -> Z -> Z -> CS * option nat.
Notation eval := (eval s check).
Variable thr : nat.
Variable MOK : Z -> env -> pattern -> Prop.
Variable TOK : Z -> env -> pattern -> Prop.
Notation CG := (CG thr MOK TOK).

(** the instruction succeeds at [i], or it does not *)
Definition cm (ins : insn) (i : nat) : Prop :=
  match ins with
  | IAny n => i + N.to_nat (bN n) <= List.length s
  | _ => exists b, nth_error s i = Some b /\ cmatch ins b = true
  end.
Fixpoint matches (pre : program) (i : nat) : Prop :=
  match pre with
  | [] => True
  | ins :: pre => cm ins i /\ matches pre (i + wd ins)
  end.
Definition nomatch (ins : insn) (j : nat) : Prop :=
  match ins with
  | IAny n => List.length s < j + N.to_nat (bN n)
  | _ => match nth_error s j with Some b => cmatch ins b = false | None => True end
  end.
(** the part of the input a run of byte tests peeks at *)
Fixpoint px (pre : program) (i : nat) : nat :=
  match pre with
  | [] => 0
  | IAny n :: pre => px pre (i + N.to_nat (bN n))
  | _ :: pre => Nat.max (S i) (px pre (i + 1))
  end.

Lemma matches_app : forall a b i, matches (a ++ b) i <-> matches a i /\ matches b (i + wds a).
Proof.
  clear - s. induction a as [|x a IH]; intros b i; cbn [app matches].
  - rewrite wds_nil, Nat.add_0_r. tauto.
  - rewrite IH, wds_cons, Nat.add_assoc. tauto.
Qed.
Lemma px_app : forall a b i, px (a ++ b) i = Nat.max (px a i) (px b (i + wds a)).
Proof.
  induction a as [|x a IH]; intros b i.
  - simpl. rewrite Nat.add_0_r. reflexivity.
  - rewrite wds_cons, Nat.add_assoc. destruct x; cbn [app px wd]; rewrite IH; lia.
Qed.
Lemma cm_len : forall ins i, charlike ins = true -> cm ins i -> i + wd ins <= List.length s.
Proof.
  intros ins i Hc H. destruct ins; try discriminate; cbn [cm wd] in *; try exact H; destruct H as (b0 & H & _);
    assert (i < List.length s) by (apply nth_error_Some; congruence); lia.
Qed.
Lemma matches_len : forall pre i, forallb charlike pre = true -> matches pre i -> i <= List.length s -> i + wds pre <= List.length s.
Proof.
  induction pre as [|x pre IH]; intros i Hc H Hi; [rewrite wds_nil; lia|]. cbn [matches forallb] in *. apply andb_true_iff in Hc. destruct Hc as [Hc1 Hc2].
  destruct H as [H1 H2]. apply cm_len in H1; [|exact Hc1]. apply IH in H2; [|exact Hc2|exact H1]. rewrite wds_cons. lia.
Qed.

(** extracting a common prefix of two decompositions *)
Lemma app_split : forall {A} (a b c d : list A), a ++ b = c ++ d ->
  (exists e, c = a ++ e /\ b = e ++ d) \/ (exists e, a = c ++ e /\ d = e ++ b).
Proof.
  intros A a. induction a as [|x a IH]; intros b c d H.
  - left. exists c. auto.
  - destruct c as [|y c].
    + right. exists (x :: a). auto.
    + simpl in H. injection H as -> H. apply IH in H. destruct H as [(e & -> & ->)|(e & -> & ->)]; [left|right]; exists e; auto.
Qed.

Lemma le_res_none : forall (a b : res CS) o w x, le_res a (o, w, x) -> a = b -> le_res b (o, w, x).
Proof. intros. subst. assumption. Qed.

Lemma star_get : forall n E q i w, eval n E (PStar (get q)) i w = eval n E (PStar q) i w.
Proof.
  induction n as [|n IH]; intros E q i w; rewrite !eval_star, get_ok; [reflexivity|].
  apply eorelse_cong; [|auto]. apply ebind_cong; [reflexivity|]. intros. apply IH.
Qed.

Lemma get_star : forall q, get (PStar q) = PStar q. Proof. reflexivity. Qed.
Lemma star_head : forall E p c, CG E p c -> (exists q, p = PStar q) -> exists ins c', c = ins :: c' /\ charlike ins = false.
Proof.
  intros E p c H. induction H; intros (q0 & Hq); try discriminate; try (do 2 eexists; split; reflexivity).
  apply IHCG. exists q0. rewrite Hq. reflexivity.
Qed.
Lemma star_not_charlike : forall E q c, CG E (PStar q) c -> forallb charlike c = false.
Proof. intros. destruct (star_head _ _ _ H) as (ins & c' & -> & Hi); [eauto|]. simpl. rewrite Hi. reflexivity. Qed.

Lemma leaf_grammar_le : forall E defs st b n i w, sdok defs -> assoc (inline_all thr defs) st = Some b ->
  le_res (eval n E (PGrammar defs st) i w) (match n with O => (None, w, 0) | S n => eval n (inline_all thr defs :: E) b i w end).
Proof.
  intros. eapply le_trans; [apply (inline_all_sle _ _ _ thr); assumption|]. rewrite eval_grammar. rewrite H0. apply le_refl.
Qed.

(** the search loop *)
Lemma search_body_eq : forall q skip, search_body q skip =
  PAlt (get q) (PSeq (PDot x01) (match skip with Some set => PSeq (PStar (PClass set)) (PNonTerm "S" None) | None => PNonTerm "S" None end)).
Proof. intros. unfold search_body, p_or, p_concat. simpl. destruct skip; reflexivity. Qed.

Section Search.
Variables (E : env) (q : pattern) (csub : program).
(** the byte test at the head of the code of [q] is necessary for [q] to match *)
Hypothesis Hhead : forall ins rest, csub = ins :: rest -> charlike ins = true -> forall i, nomatch ins i ->
  forall n w, exists x, x <= px [ins] i /\ le_res (eval n E q i w) (Some RFail, w, x).
Hypothesis HS : ~ In "S"%string (free_nts q).
Let skip := skip_of csub.
Let body := search_body q skip.
Let E1 : env := [("S"%string, body)] :: E.

Lemma search_q : forall n i w, eval n E1 (get q) i w = eval n E q i w.
Proof.
  intros. rewrite get_ok. apply (weaken _ _ _ [("S"%string, body)] n q E1 E ["S"%string]).
  - apply wk_here.
  - intros x [<-|[]]. exact HS.
Qed.

Lemma skip_fail : forall set i b, skip = Some set -> nth_error s i = Some b -> cs_has set b = true ->
  forall n w, exists x, x <= S i /\ le_res (eval n E q i w) (Some RFail, w, x).
Proof.
  intros set i b Hs Hb Hh n w. unfold skip, skip_of in Hs. destruct csub as [|ins rest]; [discriminate|].
  destruct ins; try discriminate.
  - injection Hs as <-. rewrite cs_compl_has, has_single in Hh.
    destruct (Hhead _ _ eq_refl eq_refl i) with (n := n) (w := w) as (x & Hx & H); [unfold nomatch; rewrite Hb; simpl; destruct (byte_eqb b0 b); [discriminate|reflexivity]|].
    exists x. split; [simpl in Hx; lia|exact H].
  - destruct (cs_size s0 <? 10); [|discriminate]. injection Hs as <-. rewrite cs_compl_has in Hh.
    destruct (Hhead _ _ eq_refl eq_refl i) with (n := n) (w := w) as (x & Hx & H); [unfold nomatch; rewrite Hb; simpl; destruct (cs_has s0 b); [discriminate|reflexivity]|].
    exists x. split; [simpl in Hx; lia|exact H].
Qed.

Lemma search_skip_ok : forall set, skip = Some set -> forall m i w r w' x,
  eval m E (PSearch q) i w = (Some r, w', x) ->
  exists j x0 m' x1, eval m E1 (PStar (PClass set)) i w = (Some (RSucc j []), w, x0) /\ m' <= m /\
    eval m' E (PSearch q) j w = (Some r, w', x1) /\ x <= Nat.max x0 x1.
Proof.
  intros set Hs. induction m as [|m IH]; intros i w r w' x H.
  - rewrite eval_search in H. discriminate.
  - rewrite eval_star, eval_class. unfold class_eval. destruct (nth_error s i) as [b|] eqn:Eb.
    + destruct (cs_has set b) eqn:Hh.
      * destruct (skip_fail set i b Hs Eb Hh m w) as (y & Hy & HF). rewrite eval_search in H.
        destruct (eval m E q i w) as [[[o|] w1] x1] eqn:Eq; [|simpl in H; discriminate].
        unfold le_res in HF. simpl in HF. assert (HF' := HF ltac:(discriminate)). injection HF' as -> -> ->. cbn [eorelse] in H.
        assert (Hlt : i < List.length s) by (apply nth_error_Some; congruence). apply Nat.ltb_lt in Hlt. rewrite Hlt in H.
        destruct (eval m E (PSearch q) (S i) w) as [[o w2] x2] eqn:E2. injection H as -> -> <-.
        destruct (IH _ _ _ _ _ E2) as (j & x0 & m' & x3 & H1 & H2 & H3 & H4).
        cbn [ebind]. rewrite H1. cbn [eorelse app]. exists j, (Nat.max (S i) x0), m', x3. split; [reflexivity|]. split; [lia|]. split; [exact H3|lia].
      * simpl. exists i. do 3 eexists. split; [reflexivity|]. split; [apply Nat.le_refl|]. split; [exact H|lia].
    + simpl. exists i. do 3 eexists. split; [reflexivity|]. split; [apply Nat.le_refl|]. split; [exact H|lia].
Qed.

Lemma search_ok : forall n i w r w' x, eval (S n) E (PSearch q) i w = (Some r, w', x) ->
  exists x', x <= x' /\ eval n E1 body i w = (Some r, w', x').
Proof.
  induction n as [n IHn] using lt_wf_ind. intros i w r w' x H. unfold body. rewrite search_body_eq, eval_alt, search_q.
  rewrite eval_search in H. destruct (eval n E q i w) as [[[[|j ts|j]|] w1] x1] eqn:Eq; cbn [eorelse] in H; try discriminate.
  2: { exists x1. injection H as <- <- <-. split; [lia|reflexivity]. }
  2: { exists x1. injection H as <- <- <-. split; [lia|reflexivity]. }
  cbn [eorelse]. rewrite eval_seq, eval_dot. change (N.to_nat (bN x01)) with 1. rewrite Nat.add_1_r.
  destruct (i <? List.length s) eqn:El.
  - apply Nat.ltb_lt in El. destruct (Nat.leb_spec (S i) (List.length s)); [|lia]. cbn [ebind].
    destruct (eval n E (PSearch q) (S i) w1) as [[o w2] x2] eqn:E2. injection H as -> -> <-.
    destruct n as [|m]; [rewrite eval_search in E2; discriminate|].
    assert (Hsk : (exists set, skip = Some set) \/ skip = None) by (destruct skip; eauto).
    destruct Hsk as [[set Es]|Es]; rewrite Es.
    + destruct (search_skip_ok set Es _ _ _ _ _ _ E2) as (j & x0 & m' & x3 & H1 & H2 & H3 & H4).
      rewrite eval_seq, H1. cbn [ebind]. rewrite eval_nt. cbn [lookup assoc E1]. change (String.eqb "S" "S") with true. cbv iota.
      fold E1. destruct m' as [|m']; [rewrite eval_search in H3; discriminate|].
      destruct (IHn m' ltac:(lia) _ _ _ _ _ H3) as (x4 & H5 & H6).
      apply (evals_up _ _ _ _ _ _ _ _ _ _ _ m) in H6; [|lia].
      rewrite H6. destruct r; eexists; (split; [|reflexivity]); lia.
    + rewrite eval_nt. cbn [lookup assoc E1]. change (String.eqb "S" "S") with true. cbv iota. fold E1.
      destruct (IHn m ltac:(lia) _ _ _ _ _ E2) as (x4 & H5 & H6). rewrite H6.
      destruct r; eexists; (split; [|reflexivity]); lia.
  - apply Nat.ltb_ge in El. destruct (Nat.leb_spec (S i) (List.length s)); [lia|]. cbn [ebind].
    injection H as <- <- <-. eexists. split; [|reflexivity]. lia.
Qed.

Lemma search_grammar_ok : forall n i w r w' x, eval n E (PSearch q) i w = (Some r, w', x) ->
  exists x', x <= x' /\ eval n E (search_grammar q skip) i w = (Some r, w', x').
Proof.
  intros. unfold search_grammar. rewrite eval_grammar. destruct n as [|n]; [rewrite eval_search in H; discriminate|].
  cbn [assoc]. change (String.eqb "S" "S") with true. cbv iota.
  apply search_ok. exact H.
Qed.
End Search.

(** code consisting of byte tests, and code starting with byte tests one of which fails *)
Definition pl_all (E : env) (p : pattern) (c : program) (i : nat) : Prop :=
  forallb charlike c = true -> matches c i -> forall n w, exists x, x <= px c i /\
    le_res (eval n E p i w) (Some (RSucc (i + wds c) []), w, x).
Definition pl_no (E : env) (p : pattern) (c : program) (i : nat) : Prop :=
  forall pre ins rest, c = pre ++ ins :: rest -> forallb charlike pre = true -> charlike ins = true ->
    matches pre i -> nomatch ins (i + wds pre) ->
    forall n w, exists x, x <= px (pre ++ [ins]) i /\ le_res (eval n E p i w) (Some RFail, w, x).

Lemma pl_no_head : forall E p c i ins c', c = ins :: c' -> charlike ins = false -> pl_no E p c i.
Proof.
  intros E p c i ins c' -> H pre ins' rest Hc Hp Hi. destruct pre; simpl in Hc; injection Hc as -> _; [congruence|].
  simpl in Hp. rewrite H in Hp. discriminate.
Qed.
Lemma pl_all_head : forall E p c i ins c', c = ins :: c' -> charlike ins = false -> pl_all E p c i.
Proof. intros E p c i ins c' -> H Hc. simpl in Hc. rewrite H in Hc. discriminate. Qed.
Lemma pl_le : forall E p E' p' c i, (forall n w, exists n', le_res (eval n E p i w) (eval n' E' p' i w)) ->
  pl_all E' p' c i /\ pl_no E' p' c i -> pl_all E p c i /\ pl_no E p c i.
Proof.
  intros E p E' p' c i Hle [H1 H2]. split.
  - intros Hc Hm n w. destruct (Hle n w) as (n' & Hn). destruct (H1 Hc Hm n' w) as (x & Hx & Hl). exists x. split; [exact Hx|]. eapply le_trans; eassumption.
  - intros pre ins rest Hc Hp Hi Hm Hno n w. destruct (Hle n w) as (n' & Hn). destruct (H2 _ _ _ Hc Hp Hi Hm Hno n' w) as (x & Hx & Hl). exists x. split; [exact Hx|]. eapply le_trans; eassumption.
Qed.

(** le_res through the second part of a sequence *)
Lemma le_bind_r : forall (a : res CS) f j w x b, le_res a (Some (RSucc j []), w, x) -> le_res (f j w) b ->
  le_res (ebind a f) (match b with (o, w', x') => (o, w', Nat.max x x') end).
Proof.
  intros a f j w x b Ha Hf. eapply le_trans; [apply le_bind; [exact Ha|intros; apply le_refl]|]. cbn [ebind].
  intro H. destruct (f j w) as [[o w1] x1]. specialize (Hf ltac:(destruct o as [[]|]; simpl in *; congruence)). subst b.
  destruct o as [[]|]; reflexivity.
Qed.
Lemma le_bind_l : forall (a : res CS) f w x, le_res a (Some RFail, w, x) -> le_res (ebind a f) (Some RFail, w, x).
Proof. intros a f w x Ha. eapply le_trans; [apply le_bind; [exact Ha|intros; apply le_refl]|]. apply le_refl. Qed.

Lemma class_pl : forall E set i, pl_all E (PClass set) [ISet set] i /\ pl_no E (PClass set) [ISet set] i.
Proof.
  intros E set i. split.
  - intros _ Hm n w. simpl in Hm. destruct Hm as [(b & Hb & Hm) _]. exists (S i). split; [simpl; lia|].
    rewrite eval_class. unfold class_eval. rewrite Hb. simpl in Hm. rewrite Hm.
    rewrite Nat.add_1_r. apply le_refl.
  - intros pre ins rest Hc Hp Hi Hm Hno n w. destruct pre as [|? [|]]; simpl in Hc; try discriminate. injection Hc as <- <-.
    exists (S i). split; [simpl; lia|]. rewrite eval_class. unfold class_eval, nomatch in *. rewrite Nat.add_0_r in Hno.
    destruct (nth_error s i); [simpl in Hno; rewrite Hno|]; apply le_refl.
Qed.

Lemma prefix : forall E p c, CG E p c -> forall i, pl_all E p c i /\ pl_no E p c i.
Proof.
  intros E p c H. induction H; intro i;
    try (split; [eapply pl_all_head; reflexivity | eapply pl_no_head; reflexivity]).
  - (* get *) eapply pl_le; [|apply IHCG]. intros n w. exists n. rewrite get_ok. apply le_refl.
  - (* alt_set *) eapply pl_le; [|apply class_pl]. intros n w. exists n. 
    rewrite eval_alt, (combine_eval _ _ _ _ _ _ _ _ _ _ H).
    erewrite eorelse_cong; [apply le_refl|symmetry; apply get_ok|intros; symmetry; apply get_ok].
  - (* alt_test *) destruct h; try discriminate; injection H1 as <-;
      (split; [eapply pl_all_head; reflexivity | eapply pl_no_head; reflexivity]).
  - (* seq *) split.
    + intros Hc Hm n w. rewrite forallb_app in Hc. apply andb_true_iff in Hc. destruct Hc as [Hc1 Hc2].
      apply matches_app in Hm. destruct Hm as [Hm1 Hm2].
      destruct (proj1 (IHCG1 i) Hc1 Hm1 n w) as (x1 & Hx1 & IH1).
      destruct (proj1 (IHCG2 _) Hc2 Hm2 n w) as (x2 & Hx2 & IH2).
      exists (Nat.max x1 x2). split; [rewrite px_app; lia|]. rewrite eval_seq.
      rewrite wds_app, Nat.add_assoc. apply (le_bind_r _ (fun j w => eval n E r j w) _ _ _ _ IH1 IH2).
    + intros pre ins rest Hc Hp Hi Hm Hno n w. rewrite eval_seq. apply app_split in Hc. destruct Hc as [(e & -> & Hr)|(e & -> & Hr)].
      * rewrite forallb_app in Hp. apply andb_true_iff in Hp. destruct Hp as [Hp1 Hp2].
        apply matches_app in Hm. destruct Hm as [Hm1 Hm2].
        destruct (proj1 (IHCG1 i) Hp1 Hm1 n w) as (x1 & Hx1 & IH1).
        rewrite wds_app, Nat.add_assoc in Hno.
        destruct (proj2 (IHCG2 _) _ _ _ Hr Hp2 Hi Hm2 Hno n w) as (x2 & Hx2 & IH2).
        exists (Nat.max x1 x2). split; [rewrite <- app_assoc, px_app; lia|].
        apply (le_bind_r _ (fun j w => eval n E r j w) _ _ _ _ IH1 IH2).
      * destruct e as [|ins' e].
        -- rewrite app_nil_r in *. simpl in Hr. 
           destruct (proj1 (IHCG1 i) Hp Hm n w) as (x1 & Hx1 & IH1).
           destruct (proj2 (IHCG2 (i + wds pre)) [] ins rest) with (n := n) (w := w) as (x2 & Hx2 & IH2); auto; [exact I|rewrite Nat.add_0_r; exact Hno|].
           exists (Nat.max x1 x2). split; [rewrite px_app; simpl app in Hx2; lia|].
           apply (le_bind_r _ (fun j w => eval n E r j w) _ _ _ _ IH1 IH2).
        -- simpl in Hr. injection Hr as <- ->. 
           destruct (proj2 (IHCG1 i) _ _ _ eq_refl Hp Hi Hm Hno n w) as (x & Hx & IH). exists x. split; [exact Hx|]. apply le_bind_l. exact IH.
  - (* plus *) destruct (star_head _ _ _ H) as (h & c' & -> & Hh); [eauto|]. split.
    + intro Hc. rewrite forallb_app in Hc. simpl in Hc. rewrite Hh, andb_false_r in Hc. discriminate.
    + intros pre ins rest Hc Hp Hi Hm Hno n w. rewrite eval_plus, eval_seq. apply app_split in Hc. destruct Hc as [(e & -> & Hr)|(e & -> & Hr)].
      * exfalso. destruct e; simpl in Hr; injection Hr as -> _; [congruence|]. rewrite forallb_app in Hp. simpl in Hp. rewrite Hh, andb_false_r in Hp. discriminate.
      * destruct e as [|ins' e]; simpl in Hr; injection Hr as -> Hr; [congruence|]. subst rest.
        destruct (proj2 (IHCG2 i) _ _ _ eq_refl Hp Hi Hm Hno n w) as (x & Hx & IH). exists x. split; [exact Hx|]. apply le_bind_l. exact IH.
  - (* opt *) eapply pl_le; [|apply IHCG]. intros n w. exists n. rewrite eval_opt.
    rewrite !eval_alt, get_ok. apply le_refl.
  - (* cap full *) split.
    + intro Hc. rewrite forallb_app in Hc. simpl in Hc. rewrite andb_false_r in Hc. discriminate.
    + intros pre ins rest Hc Hp Hi Hm Hno n w. apply app_split in Hc. destruct Hc as [(e & -> & Hr)|(e & -> & Hr)].
      * exfalso. destruct e; simpl in Hr; injection Hr as <- _; [discriminate|]. rewrite forallb_app in Hp. simpl in Hp. rewrite andb_false_r in Hp. discriminate.
      * destruct e as [|ins' e]; simpl in Hr; injection Hr as -> Hr; [discriminate|]. subst rest.
        destruct (proj2 (IHCG i) _ _ _ eq_refl Hp Hi Hm Hno n w) as (x & Hx & IH). exists x. split; [exact Hx|]. rewrite eval_cap.
        eapply le_trans; [apply le_emap; exact IH|apply le_refl].
  - (* cap late *) split.
    + intro Hc. rewrite forallb_app in Hc. simpl in Hc. rewrite andb_false_r in Hc. discriminate.
    + intros pre' ins rest Hc Hp Hi Hm Hno n w. apply app_split in Hc. destruct Hc as [(e & -> & Hr)|(e & -> & Hr)].
      * exfalso. destruct e; simpl in Hr; injection Hr as <- _; [discriminate|]. rewrite forallb_app in Hp. simpl in Hp. rewrite andb_false_r in Hp. discriminate.
      * destruct e as [|ins' e]; simpl in Hr; injection Hr as -> Hr; [discriminate|]. 
        destruct (proj2 (IHCG i) pre' ins' (e ++ post)) with (n := n) (w := w) as (x & Hx & IH); auto; [rewrite <- app_assoc; reflexivity|].
        exists x. split; [exact Hx|]. rewrite eval_cap.
        eapply le_trans; [apply le_emap; exact IH|apply le_refl].
  - (* search *)
    assert (Hhead : forall ins rest, csub = ins :: rest -> charlike ins = true -> forall i, nomatch ins i ->
       forall n w, exists x, x <= px [ins] i /\ le_res (eval n E q i w) (Some RFail, w, x)).
    { intros ins rest Hr Hi j Hno n w. destruct (proj2 (IHCG1 j) [] ins rest) with (n := n) (w := w) as (x & Hx & IH); auto; [exact I|rewrite Nat.add_0_r; exact Hno|].
      exists x. split; [exact Hx|exact IH]. }
    split.
    + intros Hc Hm n w. destruct (eval n E (PSearch q) i w) as [[[r|] w1] x1] eqn:Es; [|exists 0; split; [lia|apply le_out]].
      destruct (search_grammar_ok E q csub Hhead H0 _ _ _ _ _ _ Es) as (x' & Hx' & Hg).
      destruct (proj1 (IHCG2 i) Hc Hm n w) as (x & Hx & Hl). rewrite Hg in Hl. injection (Hl ltac:(discriminate)) as -> -> ->.
      exists x1. split; [lia|apply le_refl].
    + intros pre ins rest Hc Hp Hi Hm Hno n w. destruct (eval n E (PSearch q) i w) as [[[r|] w1] x1] eqn:Es; [|exists 0; split; [lia|apply le_out]].
      destruct (search_grammar_ok E q csub Hhead H0 _ _ _ _ _ _ Es) as (x' & Hx' & Hg).
      destruct (proj2 (IHCG2 i) _ _ _ Hc Hp Hi Hm Hno n w) as (x & Hx & Hl). rewrite Hg in Hl. injection (Hl ltac:(discriminate)) as -> -> ->.
      exists x1. split; [lia|apply le_refl].
  - (* leaf *) eapply pl_le; [|apply IHCG]. intros n w. exists (pred n).
    eapply le_trans; [apply leaf_grammar_le; eassumption|]. destruct n; [apply le_out|apply le_refl].
  - (* grammar *) 
    assert (Hcall : exists l c, code' = l :: c /\ charlike l = false).
    { match goal with Hr : resolved _ _ _ |- _ => destruct Hr as [Hlen Hr]; rename Hr into H9 end. clear H2. rename H9 into H2. specialize (H2 0). simpl in H2. destruct H2 as (l & _ & [H2|[H2 _]]); destruct code' as [|i0 c0]; try discriminate; simpl in H2; injection H2 as ->; do 2 eexists; split; reflexivity. }
    destruct Hcall as (l & c & -> & Hl). simpl. split; [eapply pl_all_head; [reflexivity|exact Hl]|eapply pl_no_head; [reflexivity|exact Hl]].
  - (* class *) apply class_pl.
  - (* lit *) revert i. induction str as [|b str IH]; intro i; split.
    + intros _ _ n w. exists 0. split; [simpl; lia|]. rewrite eval_lit. simpl. rewrite Nat.add_0_r. apply le_refl.
    + intros pre ins rest Hc. destruct pre; discriminate.
    + intros Hc Hm n w. cbn [map matches cm wd cmatch] in Hm. rewrite Nat.add_1_r in Hm. destruct Hm as [(c & Hb & Hm) Hm2].
      destruct (proj1 (IH (S i)) Hc Hm2 n w) as (x & Hx & Hl). exists (Nat.max (S i) x). split; [cbn [map px]; rewrite Nat.add_1_r; lia|].
      rewrite eval_lit in *. cbn [lit_eval]. rewrite Hb, Hm. cbn [map]. rewrite wds_cons. cbn [wd]. rewrite (Nat.add_comm 1), Nat.add_1_r, <- Nat.add_succ_comm.
      apply (le_bind_r _ (fun j w => lit_eval s str j w) _ _ _ _ (le_refl _ _) Hl).
    + intros pre ins rest Hc Hp Hi Hm Hno n w. rewrite eval_lit. destruct pre as [|ins' pre]; simpl in Hc; injection Hc as <- Hc.
      * exists (S i). split; [simpl; lia|]. cbn [lit_eval]. unfold nomatch in Hno. rewrite wds_nil, Nat.add_0_r in Hno. cbn [cmatch] in Hno.
        destruct (nth_error s i); [rewrite Hno|]; apply le_refl.
      * cbn [map matches cm wd cmatch] in Hm. rewrite Nat.add_1_r in Hm. destruct Hm as [(c & Hb & Hm) Hm2]. simpl in Hp. 
        replace (i + wds (IChar b :: pre)) with (S i + wds pre) in Hno by (rewrite wds_cons; cbn [wd]; lia).
        destruct (proj2 (IH (S i)) _ _ _ Hc Hp Hi Hm2 Hno n w) as (x & Hx & Hl). exists (Nat.max (S i) x). split; [cbn [app px]; rewrite Nat.add_1_r; lia|].
        rewrite eval_lit in Hl. cbn [lit_eval]. rewrite Hb, Hm.
        apply (le_bind_r _ (fun j w => lit_eval s str j w) _ _ _ _ (le_refl _ _) Hl).
  - (* inl *) eapply pl_le; [|apply IHCG]. intros n w. exists n. rewrite eval_inl. apply le_refl.
  - (* dot *) split.
    + intros _ Hm k w. cbn [matches cm] in Hm. destruct Hm as [Hm _]. exists 0. split; [lia|]. rewrite eval_dot, wds_one. cbn [wd].
      destruct (Nat.leb_spec (i + N.to_nat (bN n)) (List.length s)); [apply le_refl|lia].
    + intros pre ins rest Hc Hp Hi Hm Hno k w. destruct pre as [|? [|]]; simpl in Hc; try discriminate. injection Hc as <- <-.
      exists 0. split; [lia|]. rewrite eval_dot. unfold nomatch in Hno. rewrite wds_nil, Nat.add_0_r in Hno.
      destruct (Nat.leb_spec (i + N.to_nat (bN n)) (List.length s)); [lia|apply le_refl].
  - (* empty *) split.
    + intros _ _ n w. exists 0. split; [lia|]. rewrite eval_empty. simpl. rewrite Nat.add_0_r. apply le_refl.
    + intros pre ins rest Hc. destruct pre; discriminate.
Qed.

Lemma prefix_all : forall E p c, CG E p c -> forall i, forallb charlike c = true -> matches c i ->
  forall n w r w' x, eval n E p i w = (Some r, w', x) -> r = RSucc (i + wds c) [] /\ w' = w /\ x <= px c i.
Proof.
  intros E p c H i Hc Hm n w r w' x He. destruct (proj1 (prefix _ _ _ H i) Hc Hm n w) as (y & Hy & Hl).
  rewrite He in Hl. injection (Hl ltac:(discriminate)) as -> -> ->. auto.
Qed.
Lemma prefix_no : forall E p c, CG E p c -> forall i pre ins rest, c = pre ++ ins :: rest -> forallb charlike pre = true -> charlike ins = true ->
  matches pre i -> nomatch ins (i + wds pre) ->
  forall n w r w' x, eval n E p i w = (Some r, w', x) -> r = RFail /\ w' = w /\ x <= px (pre ++ [ins]) i.
Proof.
  intros E p c H i pre ins rest Hc Hp Hi Hm Hno n w r w' x He. destruct (proj2 (prefix _ _ _ H i) _ _ _ Hc Hp Hi Hm Hno n w) as (y & Hy & Hl).
  rewrite He in Hl. injection (Hl ltac:(discriminate)) as -> -> ->. auto.
Qed.
Lemma search_sim : forall E q csub, CG E q csub -> ~ In "S"%string (free_nts q) -> forall n i w r w' x,
  eval n E (PSearch q) i w = (Some r, w', x) ->
  exists x', x <= x' /\ eval n E (search_grammar q (skip_of csub)) i w = (Some r, w', x').
Proof.
  intros E q csub H HS n i w r w' x He. eapply search_grammar_ok; [|exact HS|exact He].
  intros ins rest Hr Hi j Hno n' w0. destruct (proj2 (prefix _ _ _ H j) [] ins rest) with (n := n') (w := w0) as (x0 & Hx & IH); auto; [exact I|rewrite Nat.add_0_r; exact Hno|].
  exists x0. split; [exact Hx|exact IH].
Qed.
End Prefix.
