(** Compile terminates; the calls left open in its output; the names in its errors. *)
From Verif Require Import Base Model_Charset Model_Isa Model_Capture Model_VM Model_Pattern Spec_Peg Spec_Scope Proof_Eval Proof_Inline Proof_Compile Proof_Emit.
Local Open Scope nat_scope.

Section Term.
Variable thr : nat.
Notation compile_f := (compile_f thr).
Notation compile_grammar := (compile_grammar thr).
Notation gloop := (gloop thr).

(** a bound on the depth of the recursion of Compile.  For a grammar it speaks of the definitions after
    inlining *)
Inductive rk : pattern -> nat -> Prop :=
| rk_class : forall s n, 1 <= n -> rk (PClass s) n
| rk_lit : forall s n, 1 <= n -> rk (PLit s) n
| rk_nt : forall x n, 1 <= n -> rk (PNonTerm x None) n
| rk_dot : forall k n, 1 <= n -> rk (PDot k) n
| rk_err0 : forall m n, 1 <= n -> rk (PError m None) n
| rk_eop : forall op n, 1 <= n -> rk (PEmptyOp op) n
| rk_empty : forall n, 1 <= n -> rk PEmpty n
| rk_alt : forall p q a b n, rk p a -> rk q b -> 3 + a + b <= n -> rk (PAlt p q) n
| rk_seq : forall p q a b n, rk p a -> rk q b -> 1 + a + b <= n -> rk (PSeq p q) n
| rk_star : forall p a n, rk p a -> 1 + a <= n -> rk (PStar p) n
| rk_plus : forall p a n, rk p a -> 2 + a <= n -> rk (PPlus p) n
| rk_opt : forall p a n, rk p a -> 4 + a <= n -> rk (POpt p) n
| rk_not : forall p a n, rk p a -> 1 + a <= n -> rk (PNot p) n
| rk_and : forall p a n, rk p a -> 1 + a <= n -> rk (PAnd p) n
| rk_cap : forall p id a n, rk p a -> 1 + a <= n -> rk (PCap p id) n
| rk_memo : forall p id a n, rk p a -> 1 + a <= n -> rk (PMemo p id) n
| rk_check : forall p k id fl a n, rk p a -> 1 + a <= n -> rk (PCheck p k id fl) n
| rk_search : forall p a n, rk p a -> 20 + a <= n -> rk (PSearch p) n
| rk_gram : forall defs st a n, (forall k d, In (k, d) (inline_all thr defs) -> rk d a) -> 1 + a <= n -> rk (PGrammar defs st) n
| rk_inl : forall x p a n, rk p a -> 1 + a <= n -> rk (PNonTerm x (Some p)) n
| rk_err : forall m p a n, rk p a -> 1 + a <= n -> rk (PError m (Some p)) n.

Lemma rk_up : forall p n m, rk p n -> n <= m -> rk p m.
Proof. intros p n m H Hm. destruct H; econstructor; solve [eassumption|lia]. Qed.
Lemma rk_pos : forall p n, rk p n -> 1 <= n.
Proof. intros p n H. destruct H; lia. Qed.

Lemma rk_get_f : forall k p n, rk p n -> rk (get_f k p) n.
Proof.
  induction k as [|k IH]; intros p n H; [exact H|]. pose proof (rk_pos _ _ H) as Hn. destruct p; cbn [get_f]; try exact H.
  - inversion H; subst. assert (HE : rk PEmpty n) by (apply rk_empty; lia).
    assert (HO : rk (get_f k (POpt (get_f k p1))) n). { apply IH. eapply rk_opt; [apply IH; eassumption|]. match goal with X : rk p2 _ |- _ => apply rk_pos in X end. lia. }
    assert (HC : rk match combine (get_f k p1) (get_f k p2) with Some set => PClass set | None => PAlt p1 p2 end n) by (destruct (combine _ _); [apply rk_class; lia|exact H]).
    destruct (get_f k p1); try exact HE; destruct (get_f k p2); first [exact HC|exact HO].
  - inversion H; subst. assert (K1 : rk (get_f k p1) n) by (eapply rk_up; [apply IH; eassumption|lia]). assert (K2 : rk (get_f k p2) n) by (eapply rk_up; [apply IH; eassumption|lia]).
    assert (HN : forall g r, rk (get_not_seq (PSeq p1 p2) g r) n) by (intros g r; destruct (get_not_seq_cases (PSeq p1 p2) g r) as [->|(set & ->)]; [exact H|apply rk_class; lia]).
    destruct (get_f k p2); try exact K1; destruct (get_f k p1); first [exact H|exact K2|apply HN].
  - inversion H; subst. assert (K1 : rk (get_f k p) n) by (eapply rk_up; [apply IH; eassumption|lia]). destruct (get_f k p); first [exact H|exact K1].
  - destruct inl; [|exact H]. inversion H; subst. eapply rk_up; [eassumption|lia].
Qed.
Lemma rk_get : forall p n, rk p n -> rk (get p) n. Proof. intros. apply rk_get_f. assumption. Qed.

(* ---------- every pattern has a rank ---------- *)
Definition good_map (f : string -> option pattern) : Prop := forall x q, f x = Some q -> open_nts q = [] /\ exists n, rk q n.
Definition compose (f g : string -> option pattern) (x : string) : option pattern := match f x with Some q => Some q | None => g x end.
Lemma inline_compose : forall f g, (forall x q, f x = Some q -> open_nts q = []) -> forall p, inline_in g (inline_in f p) = inline_in (compose f g) p.
Proof.
  intros f g Hf. induction p using pattern_ind'; cbn [inline_in]; try (f_equal; auto; fail).
  - change (inline_in g (inline_in f (PGrammar defs st)) = inline_in (compose f g) (PGrammar defs st)). rewrite !inline_in_grammar. f_equal. rewrite map_map. apply map_ext_in. intros [k q] Hin. cbn [fst snd]. f_equal. rewrite Forall_forall in H. apply (H _ Hin).
  - destruct o as [q|]; cbn [inline_in]; [rewrite H; reflexivity|]. unfold compose. destruct (f x) as [q|] eqn:E; [|reflexivity]. rewrite inline_leaf; [reflexivity|]. exact (Hf _ _ E).
  - destruct o as [q|]; cbn [inline_in]; [rewrite H; reflexivity|reflexivity].
Qed.
Lemma compose_good : forall f g, good_map f -> good_map g -> good_map (compose f g).
Proof. intros f g Hf Hg x q. unfold compose. destruct (f x) eqn:E; [|apply Hg]. intro H. injection H as <-. exact (Hf _ _ E). Qed.
Definition ranked (p : pattern) : Prop := forall f, good_map f -> exists n, rk (inline_in f p) n.
Lemma ranked_n : forall defs, Forall (fun kq => ranked (snd kq)) defs ->
  forall k f, good_map f -> exists g, good_map g /\ inline_n thr k (map (fun kq => (fst kq, inline_in f (snd kq))) defs) = map (fun kq => (fst kq, inline_in g (snd kq))) defs.
Proof.
  intros defs H. induction k as [|k IH]; intros f Hf; [exists f; auto|]. cbn [inline_n]. set (defs' := map (fun kq => (fst kq, inline_in f (snd kq))) defs).
  destruct (did_inline thr defs'); [|exists f; auto].
  assert (Hc : good_map (inline_choice thr defs')).
  { intros x q Hx. destruct (inline_choice_spec _ _ _ _ Hx) as [H1 H2]. split; [exact H2|]. apply assoc_in in H1. apply in_map_iff in H1. destruct H1 as ([k' q'] & E & Hin). injection E as <- <-.
    rewrite Forall_forall in H. apply (H _ Hin). exact Hf. }
  destruct (IH (compose f (inline_choice thr defs'))) as (g & G1 & G2); [apply compose_good; assumption|]. exists g. split; [exact G1|]. rewrite <- G2. f_equal.
  unfold inline_pass. unfold defs' at 2. rewrite map_map. apply map_ext. intros [k' q']. cbn [fst snd]. f_equal. apply inline_compose. intros x q Hx. apply (Hf x q Hx).
Qed.
Lemma rk_bound : forall (l : list (string * pattern)), Forall (fun kq => exists n, rk (snd kq) n) l -> exists a, forall k d, In (k, d) l -> rk d a.
Proof.
  intros l H. induction H as [|[k d] l (n & Hn) _ (a & IH)]; [exists 0; intros k d []|]. exists (n + a). intros k' d' [E|E].
  - injection E as <- <-. eapply rk_up; [exact Hn|lia].
  - eapply rk_up; [eapply IH; exact E|lia].
Qed.
Lemma all_ranked : forall p, ranked p.
Proof.
  induction p using pattern_ind'; intros f Hf; cbn [inline_in];
    try (destruct (IHp1 f Hf) as (a & Ha), (IHp2 f Hf) as (b & Hb); eexists; econstructor; [exact Ha|exact Hb|reflexivity]);
    try (destruct (IHp f Hf) as (a & Ha); eexists; econstructor; [exact Ha|reflexivity]);
    try (exists 1; constructor; lia).
  - change (exists n, rk (inline_in f (PGrammar defs st)) n). rewrite inline_in_grammar.
    destruct (ranked_n defs H (S (count_open (map (fun kq => (fst kq, inline_in f (snd kq))) defs))) f Hf) as (g & G1 & G2).
    destruct (rk_bound (inline_all thr (map (fun kq => (fst kq, inline_in f (snd kq))) defs))) as (a & Ha).
    { unfold inline_all. rewrite G2. apply Forall_map. eapply Forall_impl; [|exact H]. intros [k q] Hq. cbn [snd] in *. apply Hq. exact G1. }
    exists (1 + a). eapply rk_gram; [exact Ha|lia].
  - destruct o as [q|].
    + destruct (H f Hf) as (a & Ha). eexists. econstructor; [exact Ha|reflexivity].
    + destruct (f x) as [q|] eqn:E; [|exists 1; constructor; lia]. destruct (Hf _ _ E) as (_ & a & Ha). exists (1 + a). eapply rk_inl; [exact Ha|lia].
  - destruct o as [q|]; [|exists 1; constructor; lia]. destruct (H f Hf) as (a & Ha). eexists. econstructor; [exact Ha|reflexivity].
Qed.
Lemma inline_none : forall p, inline_in (fun _ => None) p = p.
Proof.
  induction p using pattern_ind'; cbn [inline_in]; try (f_equal; auto; fail).
  - change (inline_in (fun _ => None) (PGrammar defs st) = PGrammar defs st). rewrite inline_in_grammar. f_equal. rewrite <- (map_id defs) at 2. apply map_ext_in. intros [k q] Hin. cbn [fst snd]. f_equal. rewrite Forall_forall in H. apply (H _ Hin).
  - destruct o as [q|]; [rewrite H|]; reflexivity.
  - destruct o as [q|]; [rewrite H|]; reflexivity.
Qed.
Lemma has_rank : forall p, exists n, rk p n.
Proof. intro p. destruct (all_ranked p (fun _ => None)) as (n & Hn); [intros x q H; discriminate|]. rewrite inline_none in Hn. eauto. Qed.

(* ---------- termination ---------- *)
Definition conv (g : nat -> cres) : Prop := exists F r, r <> CFuel /\ forall fuel, F <= fuel -> g fuel = r.
Lemma conv_step : forall g b, (forall fuel, g (S fuel) = b fuel) -> conv b -> conv g.
Proof. intros g b H (F & r & H1 & H2). exists (S F), r. split; [exact H1|]. intros [|fuel] Hf; [lia|]. rewrite H. apply H2. lia. Qed.
Lemma conv_ret : forall r, r <> CFuel -> conv (fun _ => r).
Proof. intros r H. exists 0, r. auto. Qed.
Lemma conv_ext : forall g h, (forall fuel, g fuel = h fuel) -> conv h -> conv g.
Proof. intros g h H (F & r & H1 & H2). exists F, r. split; [exact H1|]. intros. rewrite H. auto. Qed.
Lemma conv_bind : forall g (k : nat -> program -> cstate -> cres), conv g -> (forall c st, conv (fun fuel => k fuel c st)) -> conv (fun fuel => cbind (g fuel) (k fuel)).
Proof.
  intros g k (F & r & H1 & H2) Hk. destruct r as [c st| | |]; try congruence.
  - destruct (Hk c st) as (F' & r' & K1 & K2). exists (Nat.max F F'), r'. split; [exact K1|]. intros fuel Hf. rewrite H2 by lia. apply K2. lia.
  - exists F, (CNotFound name). split; [discriminate|]. intros fuel Hf. rewrite H2 by lia. reflexivity.
  - exists F, CNilPanic. split; [discriminate|]. intros fuel Hf. rewrite H2 by lia. reflexivity.
Qed.
Definition term (p : pattern) : Prop := forall st, conv (fun fuel => compile_f fuel p st).
Lemma term_atom : forall p, (forall fuel fuel' st, compile_f (S fuel) p st = compile_f (S fuel') p st) -> (forall st, compile_f 1 p st <> CFuel) -> term p.
Proof. intros p H1 H2 st. eapply conv_step; [intro fuel; apply (H1 fuel 0)|]. apply conv_ret. apply H2. Qed.
Ltac tbind H := (apply conv_bind; [apply H|intros ? ?]).
Lemma term_seq : forall p q, term (get p) -> term (get q) -> term (PSeq p q).
Proof. intros p q Hp Hq st. eapply conv_step; [intro fuel; reflexivity|]. cbv beta. apply conv_bind; [apply Hp|]. intros c1 st1. apply (conv_bind _ (fun _ r st => COk (c1 ++ r) st)); [apply Hq|]. intros. apply conv_ret. discriminate. Qed.
Lemma term_alt : forall p q, term (get p) -> term (get q) -> term (PAlt p q).
Proof.
  intros p q Hp Hq st. eapply conv_step; [intro fuel; reflexivity|]. cbv beta. cbn [Model_Pattern.compile_f]. destruct (combine (get p) (get q)); [apply conv_ret; discriminate|].
  apply (conv_bind _ (fun fuel l st => cbind (compile_f fuel (get q) st) (fun r st => let (L1, st) := new_label st in let (L2, st) := new_label st in COk (alt_code l r L1 L2) st))); [apply Hp|]. intros c1 st1.
  apply (conv_bind _ (fun _ r st => let (L1, st) := new_label st in let (L2, st) := new_label st in COk (alt_code c1 r L1 L2) st)); [apply Hq|]. intros. apply conv_ret. discriminate.
Qed.
Ltac tbody := intro fuel; cbn [Model_Pattern.compile_f]; reflexivity.
Lemma gloop_term : forall start used ds, (forall k v, In (k, v) ds -> term v) ->
  forall st code lbls, exists F r, fst r <> CFuel /\ forall fuel, F <= fuel -> gloop fuel start used ds st code lbls = r.
Proof.
  intros start used. induction ds as [|[k v] ds IH]; intros H st code lbls.
  - exists 0, (COk code st, lbls). split; [discriminate|]. reflexivity.
  - cbn [Proof_Emit.gloop]. assert (IH' := IH (fun k v Hin => H k v (or_intror Hin))). destruct (negb (String.eqb k start) && negb (str_mem k used)); [apply IH'|].
    unfold new_label. destruct (H k v (or_introl eq_refl) (CState (S (cs_uniq st)) (cs_memo st))) as (F1 & r1 & A1 & A2). destruct r1 as [fn st1| | |]; try congruence.
    + destruct (IH' st1 (code ++ [ILabel (S (cs_uniq st))] ++ fn ++ [IReturn]) (lbls ++ [(k, S (cs_uniq st))])) as (F2 & r2 & B1 & B2).
      exists (Nat.max F1 F2), r2. split; [exact B1|]. intros fuel Hf. rewrite A2 by lia. apply B2. lia.
    + exists F1, (CNotFound name, lbls). split; [discriminate|]. intros fuel Hf. rewrite A2 by lia. reflexivity.
    + exists F1, (CNilPanic, lbls). split; [discriminate|]. intros fuel Hf. rewrite A2 by lia. reflexivity.
Qed.
Lemma term_grammar : forall defs start, (forall k v, In (k, v) (inline_all thr defs) -> term v) -> term (PGrammar defs start).
Proof.
  intros defs start H st. eapply conv_step; [intro fuel; apply compile_grammar|]. cbv zeta beta. destruct (used_names (inline_all thr defs)) as [|u us] eqn:Eu.
  - destruct (assoc (inline_all thr defs) start) as [q|] eqn:Ea; [|apply conv_ret; discriminate]. apply assoc_in in Ea. exact (H _ _ Ea st).
  - destruct (gloop_term start (u :: us) (inline_all thr defs) H (CState (S (cs_uniq st)) (cs_memo st)) [IOpenCall start; IJump (S (cs_uniq st))] []) as (F & [r lbls] & A1 & A2).
    exists F. eexists. split; [|intros fuel Hf; rewrite A2 by exact Hf; reflexivity]. cbn [fst] in A1. destruct r as [code st'| | |]; try exact A1. destruct (resolve lbls code); discriminate.
Qed.
Lemma rk_search_body : forall q a skip, rk q a -> rk (search_body q skip) (12 + a).
Proof.
  intros q a skip H. unfold search_body. destruct skip as [set|]; unfold p_or, p_concat; cbn [rev app fold_left].
  - eapply (rk_alt _ _ a 6); [apply rk_get; exact H| |lia]. eapply (rk_seq _ _ 1 4); [apply rk_dot; lia| |lia]. eapply (rk_seq _ _ 2 1); [eapply (rk_star _ 1); [apply rk_class; lia|lia]|apply rk_nt; lia|lia].
  - eapply (rk_alt _ _ a 6); [apply rk_get; exact H| |lia]. eapply (rk_seq _ _ 1 4); [apply rk_dot; lia|apply rk_nt; lia|lia].
Qed.
Lemma search_body_self : forall q skip, selfdef [("S"%string, search_body q skip)].
Proof.
  intros q skip. exists "S"%string, (search_body q skip). split; [reflexivity|]. unfold search_body. destruct skip as [set|]; unfold p_or, p_concat; cbn [rev app fold_left open_nts]; apply in_or_app; right; cbn; auto.
Qed.
Lemma rk_term : forall n p, rk p n -> term p.
Proof.
  induction n as [n IH] using lt_wf_ind. intros p H.
  assert (HG : forall q a, rk q a -> a < n -> term (get q)) by (intros q a Hq Ha; eapply IH; [exact Ha|apply rk_get; exact Hq]).
  destruct H.
  - apply term_atom; [reflexivity|discriminate].
  - apply term_atom; [reflexivity|discriminate].
  - apply term_atom; [reflexivity|discriminate].
  - apply term_atom; [reflexivity|discriminate].
  - apply term_atom; [reflexivity|discriminate].
  - apply term_atom; [reflexivity|discriminate].
  - apply term_atom; [reflexivity|discriminate].
  - apply term_alt; eapply HG; try eassumption; lia.
  - apply term_seq; eapply HG; try eassumption; lia.
  - (* star *)
    intro st. eapply conv_step; [tbody|]. assert (HGp : rk (get p) a) by (apply rk_get; assumption). assert (HT : term (get p)) by (eapply HG; [eassumption|lia]).
    assert (HD : conv (fun fuel => cbind (compile_f fuel (get p) st) (fun sub st => let (L1, st) := new_label st in let (L2, st) := new_label st in COk ([IChoice L2; ILabel L1] ++ sub ++ [IPartialCommit L1; ILabel L2]) st))).
    { apply (conv_bind _ (fun _ sub st => let (L1, st) := new_label st in let (L2, st) := new_label st in COk ([IChoice L2; ILabel L1] ++ sub ++ [IPartialCommit L1; ILabel L2]) st)); [apply HT|]. intros. apply conv_ret. discriminate. }
    destruct (get p) as [| | | | | | | |q'| | | | | | | | | |] eqn:Eg; try exact HD; [|apply conv_ret; discriminate].
    apply (conv_bind (fun fuel => compile_f fuel (get q') st) (fun _ sub st => let (L1, st) := new_label st in let (L2, st) := new_label st in let (L3, st) := new_label st in let (NoJump, st) := new_label st in
      let m := (cs_memo st + 1)%Z in let st := CState (cs_uniq st) m in COk ([ILabel L1; IMemoTreeOpen L3 m; IChoice L2] ++ sub ++ [ICommit NoJump; ILabel NoJump; IMemoTreeInsert; ILabel L3; IMemoTree; IJump L1; ILabel L2; IMemoTreeClose m]) st)).
    + inversion HGp; subst. eapply HG; [eassumption|lia].
    + intros. apply conv_ret. discriminate.
  - (* plus *)
    intro st. eapply conv_step; [tbody|]. apply (conv_bind _ (fun fuel star st => cbind (compile_f fuel (get p) st) (fun sub st => COk (sub ++ star) st))).
    + apply (IH (1 + a)); [lia|]. eapply rk_star; [apply rk_get; eassumption|lia].
    + intros c1 st1. apply (conv_bind _ (fun _ sub st => COk (sub ++ c1) st)); [eapply HG; [eassumption|lia]|]. intros. apply conv_ret. discriminate.
  - (* optional *)
    intro st. eapply conv_step; [tbody|]. assert (HGp : rk (get p) a) by (apply rk_get; assumption).
    assert (HD : conv (fun fuel => compile_f fuel (PAlt (get p) PEmpty) st)). { apply term_alt; [eapply HG; [exact HGp|lia]|]. change (term PEmpty). apply term_atom; [reflexivity|discriminate]. }
    destruct (get p) as [| | | | | | | | | | | | |str| | | | |] eqn:Eg; try exact HD; try (apply conv_ret; discriminate). destruct str as [|b [|]]; try exact HD. apply conv_ret. discriminate.
  - intro st. eapply conv_step; [tbody|]. apply (conv_bind _ (fun _ sub st => let (L1, st) := new_label st in COk ([IChoice L1] ++ sub ++ [IFailTwice; ILabel L1]) st)); [eapply HG; [eassumption|lia]|]. intros. apply conv_ret. discriminate.
  - intro st. eapply conv_step; [tbody|]. apply (conv_bind _ (fun _ sub st => let (L1, st) := new_label st in let (L2, st) := new_label st in COk ([IChoice L1] ++ sub ++ [IBackCommit L2; ILabel L1; IFail; ILabel L2]) st)); [eapply HG; [eassumption|lia]|]. intros. apply conv_ret. discriminate.
  - intro st. eapply conv_step; [tbody|]. apply (conv_bind _ (fun _ sub st => COk (cap_code sub id) st)); [eapply HG; [eassumption|lia]|]. intros. apply conv_ret. discriminate.
  - intro st. eapply conv_step; [tbody|]. unfold new_label. apply (conv_bind _ (fun _ sub st1 => COk ([IMemoOpen (S (cs_uniq st)) id] ++ sub ++ [IMemoClose; ILabel (S (cs_uniq st))]) st1)); [eapply HG; [eassumption|lia]|]. intros. apply conv_ret. discriminate.
  - intro st. eapply conv_step; [tbody|]. unfold new_label. apply (conv_bind _ (fun _ sub st1 => COk ([ICheckBegin id fl] ++ sub ++ [ICheckEnd k; ILabel (S (cs_uniq st))]) st1)); [eapply HG; [eassumption|lia]|]. intros. apply conv_ret. discriminate.
  - (* search *)
    intro st. eapply conv_step; [tbody|]. apply (conv_bind _ (fun fuel sub st => compile_f fuel (search_grammar p (search_skip sub)) st)); [eapply HG; [eassumption|lia]|].
    intros c st1. apply (IH (13 + a)); [lia|]. eapply (rk_gram _ _ (12 + a)); [|lia]. intros k d Hin. rewrite selfdef_inline in Hin by apply search_body_self. destruct Hin as [E|[]]. injection E as <- <-. apply rk_search_body. assumption.
  - apply term_grammar. intros k v Hin. eapply (IH a); [lia|]. eapply H. exact Hin.
  - intro st. eapply conv_step; [tbody|]. eapply (IH a); [lia|assumption].
  - intro st. eapply conv_step; [tbody|]. apply (conv_bind _ (fun _ rec st => COk (IError m :: rec) st)); [eapply HG; [eassumption|lia]|]. intros. apply conv_ret. discriminate.
Qed.
Theorem compile_terminates : forall p st, exists F r, r <> CFuel /\ forall fuel, F <= fuel -> compile thr fuel p st = r.
Proof.
  intros p st. destruct (has_rank p) as (n & Hn). destruct (rk_term n p Hn st) as (F & r & H1 & H2). unfold compile.
  exists F. eexists. split; [|intros fuel Hf; rewrite H2 by exact Hf; reflexivity]. destruct r; congruence.
Qed.
End Term.

(* ---------- undefined names ---------- *)
Lemma undefined_grammar : forall x defs st, undefined x (PGrammar defs st) <->
  (~ In x (names defs) /\ (x = st \/ exists k d, In (k, d) defs /\ In x (call_nts d))) \/ exists k d, In (k, d) defs /\ undefined x d.
Proof.
  intros x defs st. cbn [undefined].
  assert (H : (fix go (l : list (string * pattern)) : Prop := match l with [] => False | (_, q) :: l => undefined x q \/ go l end) defs <-> exists k d, In (k, d) defs /\ undefined x d).
  { induction defs as [|[k d] defs IH]; [split; [intros []|intros (? & ? & [] & _)]|]. rewrite IH. split.
    - intros [H|(k' & d' & H1 & H2)]; [exists k, d; split; [left; reflexivity|exact H]|exists k', d'; split; [right; exact H1|exact H2]].
    - intros (k' & d' & [E|H1] & H2); [injection E as <- <-; left; exact H2|right; eauto]. }
  rewrite H. reflexivity.
Qed.
Lemma ud_get_f : forall n p x, undefined x (get_f n p) -> undefined x p.
Proof.
  induction n as [|n IH]; intros p x H; [exact H|]. destruct p; cbn [get_f] in H; try exact H.
  - assert (H0 : undefined x (get_f n p1) -> undefined x (PAlt p1 p2)) by (intro H1; left; auto).
    destruct (get_f n p1) eqn:E1; try destruct H; destruct (get_f n p2) eqn:E2;
      try (match type of H with context [combine ?a ?b] => destruct (combine a b); [destruct H|exact H] end);
      try (apply IH in H; apply H0; exact H).
  - assert (H0 : undefined x (get_f n p1) -> undefined x (PSeq p1 p2)) by (intro H1; left; auto).
    assert (H1 : undefined x (get_f n p2) -> undefined x (PSeq p1 p2)) by (intro H1; right; auto).
    destruct (get_f n p2) eqn:E2; try (apply H0; exact H); destruct (get_f n p1) eqn:E1; try exact H; try (apply H1; exact H).
    all: match type of H with context [get_not_seq ?a ?b ?c] => destruct (get_not_seq_cases a b c) as [Hg|(set & Hg)]; rewrite Hg in H; [exact H|destruct H] end.
  - destruct (get_f n p) eqn:E1; try exact H. cbn [undefined]. apply IH. rewrite E1. exact H.
  - destruct inl; exact H.
Qed.
Lemma ud_get : forall p x, undefined x (get p) -> undefined x p. Proof. intros p x. apply ud_get_f. Qed.

Lemma call_inline : forall f, (forall x q, f x = Some q -> open_nts q = []) -> forall p x, In x (call_nts (inline_in f p)) -> In x (call_nts p).
Proof.
  intros f Hf. induction p using pattern_ind'; intros y Hy; cbn [inline_in call_nts] in *; auto; try (apply in_app_or in Hy; apply in_or_app; destruct Hy; auto; fail).
  - destruct o as [q|]; cbn [inline_in call_nts] in *; [auto|]. destruct (f x) as [q|] eqn:E; [|exact Hy]. apply call_open in Hy. rewrite (Hf _ _ E) in Hy. destruct Hy.
  - destruct o as [q|]; cbn [inline_in call_nts] in *; auto.
Qed.
Lemma ud_inline : forall f, (forall x q, f x = Some q -> open_nts q = []) -> forall p x, undefined x (inline_in f p) -> undefined x p \/ exists y q, f y = Some q /\ undefined x q.
Proof.
  intros f Hf. induction p using pattern_ind'; intros y Hy; try (cbn [inline_in undefined] in *; auto; fail);
    try (cbn [inline_in undefined] in *; destruct Hy as [Hy|Hy]; [destruct (IHp1 y Hy)|destruct (IHp2 y Hy)]; auto; fail).
  - rewrite inline_in_grammar in Hy. apply undefined_grammar in Hy. rewrite undefined_grammar. destruct Hy as [(H1 & H2)|(k & d & H1 & H2)].
    + left. left. change (map (fun kq => (fst kq, inline_in f (snd kq))) defs) with (inl_frame f defs) in H1. unfold inl_frame in H1. rewrite names_inl in H1. split; [exact H1|]. destruct H2 as [->|(k & d & H2 & H3)]; [left; reflexivity|].
      apply in_map_iff in H2. destruct H2 as ([k' d'] & E & Hin). injection E as <- <-. apply (call_inline f Hf) in H3. right. eauto.
    + apply in_map_iff in H1. destruct H1 as ([k' d'] & E & Hin). injection E as <- <-. cbn [snd] in H2. rewrite Forall_forall in H. destruct (H _ Hin y H2) as [H3|H3]; [left; right; eauto|right; exact H3].
  - cbn [inline_in undefined] in *. destruct Hy as [Hy|(H1 & H2)]; [destruct (IHp y Hy); auto|]. left. right. split; [exact H1|]. eapply call_inline; eassumption.
  - destruct o as [q|]; cbn [inline_in undefined] in *; [auto|]. destruct (f x) as [q|] eqn:E; [|destruct Hy]. right. eauto.
  - destruct o as [q|]; cbn [inline_in undefined] in *; auto.
Qed.

(** inlining a whole grammar *)
Definition uncalled (defs0 defs : list (string * pattern)) : Prop :=
  names defs = names defs0 /\
  (forall x, (exists k d, In (k, d) defs /\ In x (call_nts d)) -> exists k d, In (k, d) defs0 /\ In x (call_nts d)) /\
  (forall x, (exists k d, In (k, d) defs /\ undefined x d) -> exists k d, In (k, d) defs0 /\ undefined x d).
Lemma uncalled_pass : forall thr defs, uncalled defs (inline_pass thr defs).
Proof.
  intros thr defs. assert (Hf : forall x q, inline_choice thr defs x = Some q -> open_nts q = []) by (intros x q H; apply (inline_choice_spec _ _ _ _ H)).
  split; [apply names_pass|]. split.
  - intros x (k & d & H1 & H2). unfold inline_pass in H1. apply in_map_iff in H1. destruct H1 as ([k' d'] & E & Hin). injection E as <- <-. cbn [snd] in H2. apply (call_inline _ Hf) in H2. eauto.
  - intros x (k & d & H1 & H2). unfold inline_pass in H1. apply in_map_iff in H1. destruct H1 as ([k' d'] & E & Hin). injection E as <- <-. cbn [snd] in H2.
    destruct (ud_inline _ Hf _ _ H2) as [H3|(y & q & H3 & H4)]; [eauto|]. apply inline_choice_spec in H3. destruct H3 as [H3 _]. apply assoc_in in H3. eauto.
Qed.
Lemma uncalled_n : forall thr n defs, uncalled defs (inline_n thr n defs).
Proof.
  intros thr. induction n as [|n IH]; intro defs; cbn [inline_n]; [split; [reflexivity|auto]|]. destruct (did_inline thr defs); [|split; [reflexivity|auto]].
  destruct (IH (inline_pass thr defs)) as (A1 & A2 & A3), (uncalled_pass thr defs) as (B1 & B2 & B3). split; [congruence|]. split; auto.
Qed.
Lemma uncalled_all : forall thr defs, uncalled defs (inline_all thr defs). Proof. intros. apply uncalled_n. Qed.

(* ---------- calls left open ---------- *)
Lemma in_upd : forall {A} (l : list A) i (x y : A), In y (upd i x l) -> y = x \/ In y l.
Proof. induction l as [|a l IH]; intros [|i] x y H; cbn [upd In] in *; [destruct H|destruct H|destruct H; [left; congruence|auto]|]. destruct H as [H|H]; [auto|]. destruct (IH _ _ _ H); auto. Qed.
Lemma resolve_loop_closed : forall n i lbls cur cur', resolve_loop n i lbls cur = inr cur' -> List.length cur <= i + n ->
  (forall t x, t < i -> nth_error cur t <> Some (IOpenCall x)) -> forall x, ~ In (IOpenCall x) cur'.
Proof.
  induction n as [|n IH]; intros i lbls cur cur' H Hl Hc x Hin; cbn [resolve_loop] in H.
  - injection H as <-. apply In_nth_error in Hin. destruct Hin as (t & Ht). assert (t < List.length cur) by (apply nth_error_Some; congruence). apply (Hc t x); [lia|exact Ht].
  - assert (U : forall j y q, List.length (upd j y q) = @List.length insn q) by (intros; apply upd_len).
    assert (K : forall j y q t z, (forall z, y <> IOpenCall z) -> nth_error (upd j y q) t = Some (IOpenCall z) -> t <> j /\ nth_error q t = Some (IOpenCall z)).
    { intros j y q t z Hy Ht. rewrite upd_nth in Ht. destruct (Nat.eqb_spec j t); cbn [andb] in Ht.
      - subst. destruct (Nat.ltb_spec t (List.length q)); [injection Ht as E; destruct (Hy _ E)|]. assert (t < List.length q) by (apply nth_error_Some; congruence). lia.
      - split; [lia|exact Ht]. }
    destruct (nth_error cur i) as [ins|] eqn:Ei.
    + assert (Hno : (forall y, ins <> IOpenCall y) -> forall t y, t < S i -> nth_error cur t <> Some (IOpenCall y)).
      { intros Hi t y Ht E. destruct (Nat.eq_dec t i) as [->|]; [rewrite Ei in E; injection E as E; destruct (Hi _ E)|]. apply (Hc t y); [lia|exact E]. }
      destruct ins; try (refine (IH _ _ _ _ H _ _ x Hin); [lia|apply Hno; discriminate]).
      destruct (assoc lbls name) as [l|]; [|discriminate].
      assert (Hcall : forall cur1 ins, (forall y, ins <> IOpenCall y) -> List.length cur1 = List.length cur -> (forall t y, nth_error cur1 t = Some (IOpenCall y) -> nth_error cur t = Some (IOpenCall y)) -> resolve_loop n (S i) lbls (upd i ins cur1) = inr cur' -> False).
      { intros cur1 ins Hi Hl1 Hs Hr. refine (IH _ _ _ _ Hr _ _ x Hin); [rewrite U; lia|]. intros t y Ht E. destruct (K _ _ _ _ _ Hi E) as [E1 E2]. apply (Hc t y); [lia|apply Hs; exact E2]. }
      destruct (next_insn (skipn (S i) cur)) as [nx|]; [destruct nx|];
        try (refine (Hcall cur (ICall l) _ eq_refl _ H); [discriminate|auto]).
      destruct (next_insn_label (skipn (S i) cur)) as [[ret|] [|]]; try (refine (Hcall cur (IJump l) _ eq_refl _ H); [discriminate|auto]).
      refine (Hcall (upd (S i + ret) INop cur) (IJump l) _ _ _ H); [discriminate|apply U|]. intros t y E. eapply K; [|exact E]. discriminate.
    + refine (IH _ _ _ _ H _ _ x Hin); [lia|]. intros t y Ht E. assert (List.length cur <= i) by (apply nth_error_None; exact Ei). assert (t < List.length cur) by (apply nth_error_Some; congruence). apply (Hc t y); [lia|exact E].
Qed.
Lemma resolve_closed : forall lbls code code', resolve lbls code = inr code' -> forall x, ~ In (IOpenCall x) code'.
Proof. intros lbls code code' H. eapply resolve_loop_closed; [exact H|lia|]. intros t x Ht. lia. Qed.
(** a name that cannot be resolved is called in the code and has no label *)
Lemma resolve_loop_fails : forall n i lbls cur x, resolve_loop n i lbls cur = inl x -> In (IOpenCall x) cur /\ assoc lbls x = None.
Proof.
  induction n as [|n IH]; intros i lbls cur x H; cbn [resolve_loop] in H; [discriminate|].
  destruct (nth_error cur i) as [ins|] eqn:Ei; [|exact (IH _ _ _ _ H)]. destruct ins; try exact (IH _ _ _ _ H).
  destruct (assoc lbls name) as [l|] eqn:El; [|injection H as <-; split; [eapply nth_error_In; exact Ei|exact El]].
  assert (Hcall : forall cur1 ins, (forall y, ins <> IOpenCall y) -> (forall y, In (IOpenCall y) cur1 -> In (IOpenCall y) cur) -> resolve_loop n (S i) lbls (upd i ins cur1) = inl x -> In (IOpenCall x) cur /\ assoc lbls x = None).
  { intros cur1 ins Hi Hs Hr. destruct (IH _ _ _ _ Hr) as [A B]. split; [|exact B]. apply in_upd in A. destruct A as [A|A]; [destruct (Hi x); congruence|auto]. }
  destruct (next_insn (skipn (S i) cur)) as [nx|]; [destruct nx|];
    try (refine (Hcall cur (ICall l) _ _ H); [discriminate|auto]).
  destruct (next_insn_label (skipn (S i) cur)) as [[ret|] [|]]; try (refine (Hcall cur (IJump l) _ _ H); [discriminate|auto]).
  refine (Hcall (upd (S i + ret) INop cur) (IJump l) _ _ H); [discriminate|]. intros y E. apply in_upd in E. destruct E as [E|E]; [discriminate|exact E].
Qed.

Section Open.
Variable thr : nat.
Notation compile_f := (compile_f thr).
Notation compile_grammar := (compile_grammar thr).
Notation gloop := (gloop thr).
Definition nop_in (c : program) (l : list string) : Prop := forall x, In (IOpenCall x) c -> In x l.
Lemma no_app : forall a b l, nop_in a l -> nop_in b l -> nop_in (a ++ b) l.
Proof. intros a b l Ha Hb x H. apply in_app_or in H. destruct H; auto. Qed.
Lemma no_cons : forall i b l, (forall x, i <> IOpenCall x) -> nop_in b l -> nop_in (i :: b) l.
Proof. intros i b l Hi Hb x [H|H]; [destruct (Hi x H)|auto]. Qed.
Lemma no_nil : forall l, nop_in [] l. Proof. intros l x []. Qed.
Lemma no_tl : forall c l, nop_in c l -> nop_in (tl c) l. Proof. intros [|i c] l H; [exact H|]. intros x Hx. apply H. right. exact Hx. Qed.
Lemma no_firstn : forall n c l, nop_in c l -> nop_in (firstn n c) l. Proof. intros n c l H x Hx. apply H. rewrite <- (firstn_skipn n c). apply in_or_app. auto. Qed.
Lemma no_skipn : forall n c l, nop_in c l -> nop_in (skipn n c) l. Proof. intros n c l H x Hx. apply H. rewrite <- (firstn_skipn n c). apply in_or_app. auto. Qed.
Lemma no_sub : forall c l l', nop_in c l -> (forall x, In x l -> In x l') -> nop_in c l'. Proof. intros c l l' H Hl x Hx. auto. Qed.
Ltac no := repeat first [apply no_app|apply no_nil|apply no_cons; [intro; discriminate|]|assumption].

Lemma gloop_open : forall fuel start used, (forall p st c st', compile_f fuel p st = COk c st' -> nop_in c (call_nts p)) ->
  forall ds st code lbls code' st' lbls', gloop fuel start used ds st code lbls = (COk code' st', lbls') ->
  (forall x, In (IOpenCall x) code' -> In (IOpenCall x) code \/ exists k d, In (k, d) ds /\ In x (call_nts d)) /\
  (forall x, assoc lbls' x = None -> assoc lbls x = None /\ (x = start \/ In x used -> ~ In x (names ds))).
Proof.
  intros fuel start used HC. induction ds as [|[k v] ds IH]; intros st code lbls code' st' lbls' H; cbn [Proof_Emit.gloop] in H.
  - injection H as <- <- <-. split; [auto|]. intros x Hx. split; [exact Hx|]. intros _ [].
  - destruct (negb (String.eqb k start) && negb (str_mem k used)) eqn:Ek.
    + destruct (IH _ _ _ _ _ _ H) as [A B]. split.
      * intros x Hx. destruct (A x Hx) as [|(k' & d & H1 & H2)]; [auto|right; exists k', d; split; [right; exact H1|exact H2]].
      * intros x Hx. destruct (B x Hx) as [B1 B2]. split; [exact B1|]. intros Hs [E|Hin]; [|exact (B2 Hs Hin)]. cbn [fst] in E. subst k. apply andb_prop in Ek. destruct Ek as [E1 E2].
        destruct Hs as [->|Hs]; [rewrite String.eqb_refl in E1; discriminate|]. apply str_mem_in in Hs. rewrite Hs in E2. discriminate.
    + unfold new_label in H. destruct (compile_f fuel v (CState (S (cs_uniq st)) (cs_memo st))) as [fn st1| | |] eqn:Ec; try discriminate.
      destruct (IH _ _ _ _ _ _ H) as [A B]. split.
      * intros x Hx. destruct (A x Hx) as [Hy|(k' & d & H1 & H2)]; [|right; exists k', d; split; [right; exact H1|exact H2]].
        apply in_app_or in Hy. destruct Hy as [Hy|Hy]; [auto|]. cbn [app] in Hy. destruct Hy as [Hy|Hy]; [discriminate|]. apply in_app_or in Hy. destruct Hy as [Hy|[Hy|[]]]; [|discriminate].
        right. exists k, v. split; [left; reflexivity|]. eapply HC; [exact Ec|exact Hy].
      * intros x Hx. destruct (B x Hx) as [B1 B2].
        assert (HA : assoc lbls x = None /\ x <> k).
        { clear -B1. induction lbls as [|[a b] l IHl]; cbn [app assoc] in *; [destruct (String.eqb_spec k x); [discriminate|auto]|]. destruct (String.eqb a x); [discriminate|]. auto. }
        split; [apply HA|]. intros Hs [E|Hin]; [|exact (B2 Hs Hin)]. cbn [fst] in E. destruct HA. congruence.
Qed.
Lemma search_calls : forall q skip x, In x (call_nts (search_body q skip)) -> x = "S"%string \/ In x (call_nts q).
Proof.
  intros q skip x. unfold search_body. destruct skip as [set|]; unfold p_or, p_concat; cbn [rev app fold_left call_nts]; intro H; apply in_app_or in H; (destruct H as [H|H]; [right; apply call_get; exact H|]); cbn in H; intuition.
Qed.
Lemma compile_open : forall fuel p st c st', compile_f fuel p st = COk c st' -> nop_in c (call_nts p).
Proof.
  induction fuel as [|fuel IH]; intros p st c st' H; [discriminate|].
  assert (IG : forall q st c st', compile_f fuel (get q) st = COk c st' -> nop_in c (call_nts q)) by (intros q st1 c1 st1' H1; eapply no_sub; [eapply IH; exact H1|]; intros x; apply call_get).
  destruct p.
  - cbn [Model_Pattern.compile_f] in H. destruct (combine (get p1) (get p2)); [injection H as <- <-; no|].
    apply cbind_ok in H. destruct H as (l & st1 & H1 & H). apply cbind_ok in H. destruct H as (r & st2 & H2 & H). injection H as <- <-. cbn [call_nts].
    assert (A1 : nop_in l (call_nts p1 ++ call_nts p2)) by (eapply no_sub; [eapply IG; exact H1|]; intros; apply in_or_app; auto).
    assert (A2 : nop_in r (call_nts p1 ++ call_nts p2)) by (eapply no_sub; [eapply IG; exact H2|]; intros; apply in_or_app; auto).
    unfold alt_code. destruct (alt_test l r _) as [t|] eqn:Et; [|no]. apply no_cons; [|apply no_app; [apply no_tl; exact A1|no]].
    intros x ->. unfold alt_test in Et. destruct (next_insn l) as [[]|]; try discriminate; destruct (next_insn r) as [[]|]; try discriminate;
      match type of Et with context [if ?b then _ else _] => destruct b; discriminate end.
  - cbn [Model_Pattern.compile_f] in H. apply cbind_ok in H. destruct H as (l & st1 & H1 & H). apply cbind_ok in H. destruct H as (r & st2 & H2 & H). injection H as <- <-. cbn [call_nts].
    apply no_app; (eapply no_sub; [eapply IG; eassumption|]; intros; apply in_or_app; auto).
  - cbn [Model_Pattern.compile_f call_nts] in *.
    assert (HD : forall sub st1, compile_f fuel (get p) st = COk sub st1 -> nop_in sub (call_nts p)) by (intros sub st1; apply IG).
    assert (HM : forall q id sub st1, get p = PMemo q id -> compile_f fuel (get q) st = COk sub st1 -> nop_in sub (call_nts p)).
    { intros q id sub st1 E Hs. eapply no_sub; [eapply IG; exact Hs|]. intros x Hx. apply call_get. rewrite E. exact Hx. }
    destruct (get p) eqn:Eg; try (injection H as <- <-; no; fail);
      apply cbind_ok in H; destruct H as (sub & st1 & H1 & H); injection H as <- <-;
      first [pose proof (HM _ _ _ _ eq_refl H1); no; fail | pose proof (HD _ _ H1); no].
  - cbn [Model_Pattern.compile_f call_nts] in *. apply cbind_ok in H. destruct H as (star & st1 & H1 & H). apply cbind_ok in H. destruct H as (sub & st2 & H2 & H). injection H as <- <-.
    apply no_app; [eapply IG; exact H2|]. eapply no_sub; [eapply IH; exact H1|]. cbn [call_nts]. apply call_get.
  - cbn [Model_Pattern.compile_f call_nts] in *. pose proof (call_get p) as G.
    assert (HD : forall c st', compile_f fuel (PAlt (get p) PEmpty) st = COk c st' -> nop_in c (call_nts p)).
    { intros c1 st1 H1. eapply no_sub; [eapply IH; exact H1|]. cbn [call_nts]. intros x Hx. rewrite app_nil_r in Hx. auto. }
    destruct (get p) eqn:Eg; try (eapply HD; exact H); [injection H as <- <-; no|]. destruct str as [|b [|]]; try (eapply HD; exact H). injection H as <- <-; no.
  - cbn [Model_Pattern.compile_f call_nts] in *. apply cbind_ok in H. destruct H as (sub & st1 & H1 & H). injection H as <- <-. apply IG in H1. no.
  - cbn [Model_Pattern.compile_f call_nts] in *. apply cbind_ok in H. destruct H as (sub & st1 & H1 & H). injection H as <- <-. apply IG in H1. no.
  - cbn [Model_Pattern.compile_f call_nts] in *. apply cbind_ok in H. destruct H as (sub & st1 & H1 & H). injection H as <- <-. apply IG in H1. unfold cap_code. destruct (cap_prefix sub) as [i back].
    pose proof (no_firstn i _ _ H1). pose proof (no_skipn i _ _ H1).
    destruct ((i =? 0) || (256 <=? back)%N); [no|]. destruct (i =? List.length sub); no.
  - cbn [Model_Pattern.compile_f call_nts new_label] in *. apply cbind_ok in H. destruct H as (sub & st1 & H1 & H). injection H as <- <-. apply IG in H1. no.
  - cbn [Model_Pattern.compile_f call_nts new_label] in *. apply cbind_ok in H. destruct H as (sub & st1 & H1 & H). injection H as <- <-. apply IG in H1. no.
  - rewrite compile_grammar in H. cbv zeta in H. cbn [call_nts]. destruct (uncalled_all thr defs) as (A1 & A2 & A3). destruct (used_names (inline_all thr defs)) as [|u us] eqn:Eu.
    + destruct (assoc (inline_all thr defs) start) as [q|] eqn:Ea; [|discriminate]. apply assoc_in in Ea. intros x Hx. apply (IH _ _ _ _ H) in Hx. apply call_open in Hx.
      assert (Hu : In x (used_names (inline_all thr defs))) by (apply in_concat_map; exists (start, q); auto). rewrite Eu in Hu. destruct Hu.
    + destruct (gloop fuel start (u :: us) (inline_all thr defs) _ _ []) as [[code st1| | |] lbls] eqn:El; try discriminate. destruct (resolve lbls code) as [x|code'] eqn:Er; [discriminate|]. injection H as <- <-.
      apply no_app; [|no]. intros x Hx. destruct (resolve_closed _ _ _ Er _ Hx).
  - cbn [Model_Pattern.compile_f call_nts] in *. apply cbind_ok in H. destruct H as (sub & st1 & H1 & H). apply IH in H. exact H.
  - injection H as <- <-. no.
  - injection H as <- <-. intros x Hx. apply in_map_iff in Hx. destruct Hx as (b & E & _). discriminate.
  - destruct inl as [q|]; [exact (IH _ _ _ _ H)|]. injection H as <- <-. intros x [E|[]]. injection E as <-. left. reflexivity.
  - injection H as <- <-. no.
  - cbn [Model_Pattern.compile_f] in H. destruct recover as [q|]; [|injection H as <- <-; no]. apply cbind_ok in H. destruct H as (sub & st1 & H1 & H). injection H as <- <-. apply IG in H1. cbn [call_nts]. no.
  - injection H as <- <-. no.
  - injection H as <- <-. no.
Qed.

(* ---------- names in errors ---------- *)
(** what an error of Compile says about the pattern *)
Definition explains (r : cres) (p : pattern) : Prop :=
  match r with CNotFound x => undefined x p | CNilPanic => exists x, undefined x p | _ => True end.
Lemma explains_bind : forall r k p, explains r p -> (forall c st, r = COk c st -> explains (k c st) p) -> explains (cbind r k) p.
Proof. intros [c st|x| |] k p H Hk; cbn [cbind]; [apply Hk; reflexivity|exact H|exact H|exact I]. Qed.
Lemma explains_sub : forall r p q, explains r p -> (forall x, undefined x p -> undefined x q) -> explains r q.
Proof. intros [c st|x| |] p q H Hs; cbn [explains] in *; auto. destruct H as (x & H). exists x. auto. Qed.
Lemma gloop_explains : forall fuel start used p, (forall d st, explains (compile_f fuel d st) d) ->
  forall ds st code lbls, (forall k d, In (k, d) ds -> forall x, undefined x d -> undefined x p) -> explains (fst (gloop fuel start used ds st code lbls)) p.
Proof.
  intros fuel start used p HC. induction ds as [|[k v] ds IH]; intros st code lbls H; cbn [Proof_Emit.gloop]; [exact I|].
  assert (H' : forall k d, In (k, d) ds -> forall x, undefined x d -> undefined x p) by (intros k' d' Hin; apply (H k' d'); right; exact Hin).
  destruct (negb (String.eqb k start) && negb (str_mem k used)); [apply IH; exact H'|]. unfold new_label.
  pose proof (HC v (CState (S (cs_uniq st)) (cs_memo st))) as HV. apply (explains_sub _ _ p) in HV; [|apply (H k v); left; reflexivity].
  destruct (compile_f fuel v (CState (S (cs_uniq st)) (cs_memo st))) as [fn st1| | |]; [apply IH; exact H'|exact HV|exact HV|exact I].
Qed.
Lemma grammar_explains : forall fuel defs start st, (forall d st, explains (compile_f fuel d st) d) ->
  explains (compile_f (S fuel) (PGrammar defs start) st) (PGrammar (inline_all thr defs) start).
Proof.
  intros fuel defs start st HC. rewrite compile_grammar. cbv zeta. set (D := inline_all thr defs).
  assert (HS : forall k d, In (k, d) D -> forall x, undefined x d -> undefined x (PGrammar D start)) by (intros k d Hin x Hx; apply undefined_grammar; right; eauto).
  destruct (used_names D) as [|u us] eqn:Eu.
  - destruct (assoc D start) as [q|] eqn:Ea.
    + apply assoc_in in Ea. eapply explains_sub; [apply HC|]. apply (HS _ _ Ea).
    + exists start. apply undefined_grammar. left. split; [|left; reflexivity]. apply assoc_none. exact Ea.
  - pose proof (gloop_explains fuel start (u :: us) (PGrammar D start) HC D (CState (S (cs_uniq st)) (cs_memo st)) [IOpenCall start; IJump (S (cs_uniq st))] [] HS) as HG.
    destruct (gloop fuel start (u :: us) D (CState (S (cs_uniq st)) (cs_memo st)) [IOpenCall start; IJump (S (cs_uniq st))] []) as [[code st1| | |] lbls] eqn:El; try exact HG.
    destruct (resolve lbls code) as [x|code'] eqn:Er; [|exact I]. apply resolve_loop_fails in Er. destruct Er as [R1 R2].
    destruct (gloop_open fuel start (u :: us) (compile_open fuel) _ _ _ _ _ _ _ El) as [O1 O2]. destruct (O2 x R2) as [_ O3]. apply undefined_grammar. left.
    destruct (O1 x R1) as [Hx|(k & d & Hin & Hx)].
    + cbn [In] in Hx. destruct Hx as [E|[E|[]]]; [|discriminate]. injection E as <-. split; [apply O3; left; reflexivity|left; reflexivity].
    + split; [|right; eauto]. apply O3. right. rewrite <- Eu. apply in_concat_map. exists (k, d). split; [exact Hin|]. apply call_open. exact Hx.
Qed.
Lemma ud_inline_all : forall defs start x, undefined x (PGrammar (inline_all thr defs) start) -> undefined x (PGrammar defs start).
Proof.
  intros defs start x H. destruct (uncalled_all thr defs) as (A1 & A2 & A3). apply undefined_grammar in H. apply undefined_grammar. rewrite A1 in H. destruct H as [(H1 & [H2|H2])|H]; [left; auto|left; split; [exact H1|right; auto]|right; auto].
Qed.
Lemma compile_explains : forall fuel p st, explains (compile_f fuel p st) p.
Proof.
  induction fuel as [|fuel IH]; intros p st; [exact I|].
  assert (IG : forall q st, explains (compile_f fuel (get q) st) q) by (intros q st1; eapply explains_sub; [apply IH|]; intros x; apply ud_get).
  destruct p; try exact I.
  - cbn [Model_Pattern.compile_f]. destruct (combine (get p1) (get p2)); [exact I|]. apply explains_bind; [eapply explains_sub; [apply IG|]; intros; left; assumption|]. intros c st1 _.
    apply explains_bind; [eapply explains_sub; [apply IG|]; intros; right; assumption|]. intros. exact I.
  - cbn [Model_Pattern.compile_f]. apply explains_bind; [eapply explains_sub; [apply IG|]; intros; left; assumption|]. intros c st1 _.
    apply explains_bind; [eapply explains_sub; [apply IG|]; intros; right; assumption|]. intros. exact I.
  - cbn [Model_Pattern.compile_f]. pose proof (IG p) as HD. pose proof (fun x => ud_get p x) as HU.
    destruct (get p) eqn:Eg; try exact I; (apply explains_bind; [|intros; exact I]); first [apply HD|eapply explains_sub; [apply IG|]; intros x Hx; cbn [undefined]; apply HU; exact Hx].
  - cbn [Model_Pattern.compile_f]. apply explains_bind; [eapply explains_sub; [apply IH|]; cbn [undefined]; intros x; apply ud_get|]. intros c st1 _. apply explains_bind; [exact (IG p st1)|]. intros. exact I.
  - cbn [Model_Pattern.compile_f]. assert (HD : explains (compile_f fuel (PAlt (get p) PEmpty) st) (POpt p)). { eapply explains_sub; [apply IH|]. cbn [undefined]. intros x [Hx|[]]. apply ud_get. exact Hx. }
    destruct (get p) eqn:Eg; try exact HD; [exact I|]. destruct str as [|b [|]]; try exact HD. exact I.
  - cbn [Model_Pattern.compile_f]. apply explains_bind; [exact (IG p st)|]. intros. exact I.
  - cbn [Model_Pattern.compile_f]. apply explains_bind; [exact (IG p st)|]. intros. exact I.
  - cbn [Model_Pattern.compile_f]. apply explains_bind; [exact (IG p st)|]. intros. exact I.
  - cbn [Model_Pattern.compile_f new_label]. apply explains_bind; [exact (IG p _)|]. intros. exact I.
  - cbn [Model_Pattern.compile_f new_label]. apply explains_bind; [exact (IG p _)|]. intros. exact I.
  - eapply explains_sub; [apply grammar_explains; exact IH|]. intros x. apply ud_inline_all.
  - cbn [Model_Pattern.compile_f]. apply explains_bind; [eapply explains_sub; [apply IG|]; intros; left; assumption|]. intros c st1 _. eapply explains_sub; [apply IH|].
    intros x Hx. apply undefined_grammar in Hx. destruct Hx as [(H1 & H2)|(k & d & Hin & Hx)].
    + cbn [names map fst In] in H1. assert (HS : x <> "S"%string) by (intro E; apply H1; left; auto). right. split; [exact HS|]. destruct H2 as [->|(k & d & Hin & Hx)]; [destruct HS; reflexivity|].
      destruct Hin as [E|[]]. injection E as <- <-. apply search_calls in Hx. destruct Hx; [contradiction|assumption].
    + destruct Hin as [E|[]]. injection E as <- <-. left. unfold search_body in Hx. destruct (search_skip c); unfold p_or, p_concat in Hx; cbn [rev app fold_left undefined] in Hx; destruct Hx as [Hx|Hx]; try (apply ud_get; exact Hx); tauto.
  - cbn [Model_Pattern.compile_f]. destruct inl as [q|]; [|exact I]. exact (IH q st).
  - cbn [Model_Pattern.compile_f]. destruct recover as [q|]; [|exact I]. apply explains_bind; [exact (IG q st)|]. intros. exact I.
Qed.

Lemma opt_step_open : forall lbl p i x, In (IOpenCall x) (opt_step lbl p i) -> In (IOpenCall x) p.
Proof.
  intros lbl p i x H. unfold opt_step in H. destruct (nth_error p i) as [ins|]; [|exact H]. destruct ins; try exact H.
  - destruct (next_insn (skipn (lbl l) p)) as [j|] eqn:Ej; [|exact H]. destruct j; try exact H; apply in_upd in H; destruct H as [H|H]; try discriminate; exact H.
  - destruct (nth_error p (S i)) as [j|]; [|exact H]. destruct j; try exact H; (apply in_upd in H; destruct H as [H|H]; [discriminate|]; apply in_upd in H; destruct H as [H|H]; [discriminate|exact H]).
Qed.
Lemma optimize_closed : forall p x, In (IOpenCall x) (optimize p) -> In (IOpenCall x) p.
Proof.
  intros p x. unfold optimize. generalize (lbl_index p). intro lbl. generalize (seq 0 (List.length p)). intro l. revert p. induction l as [|i l IH]; intros p H; cbn [fold_left] in H; [exact H|]. apply IH in H. eapply opt_step_open. exact H.
Qed.
Theorem compile_open_calls : forall fuel p st c st' x, compile thr fuel p st = COk c st' -> In (IOpenCall x) c -> In x (call_nts p).
Proof.
  intros fuel p st c st' x H Hx. unfold compile in H. destruct (compile_f fuel p st) as [c0 st0| | |] eqn:Ec; try discriminate. injection H as <- <-. apply optimize_closed in Hx. eapply compile_open; eassumption.
Qed.
Theorem compile_errors : forall fuel p st, explains (compile thr fuel p st) p.
Proof. intros fuel p st. unfold compile. pose proof (compile_explains fuel p st) as H. destruct (compile_f fuel p st); exact H || exact I. Qed.
End Open.
