(** The numbers of labels do not matter as long as they differ. *)
From Verif Require Import Base Model_Charset Model_Isa Model_Code Model_Pattern Model_Labels Proof_Compile Proof_Emit.
Local Open Scope nat_scope.

(** change the numbers, where labels are defined and where they are used *)
Definition rl (g : nat -> nat) (i : insn) : insn := match i with ILabel l => ILabel (g l) | _ => map_lbl g i end.
Definition rlp (g : nat -> nat) (c : program) : program := map (rl g) c.
Definition rlr (g : nat -> nat) (r : cres) : cres := match r with COk c st => COk (rlp g c) st | r => r end.
Definition rln (g : nat -> nat) (ls : list (string * nat)) : list (string * nat) := map (fun x => (fst x, g (snd x))) ls.

Section Relabel.
Variable g : nat -> nat.
Notation rl := (rl g).
Notation rlp := (rlp g).
Lemma rl_nop : forall i, is_label_or_nop (rl i) = is_label_or_nop i.
Proof. destruct i; reflexivity. Qed.
Lemma rl_next : forall c, next_insn (rlp c) = option_map rl (next_insn c).
Proof. induction c as [|i c IH]; [reflexivity|]. cbn [Proof_Labels.rlp map next_insn]. rewrite rl_nop. destruct (is_label_or_nop i); [exact IH|reflexivity]. Qed.
Lemma rl_alt : forall l r a b, alt_code (rlp l) (rlp r) (g a) (g b) = rlp (alt_code l r a b).
Proof.
  intros l r a b. assert (T : alt_test (rlp l) (rlp r) (g a) = option_map rl (alt_test l r a)).
  { unfold alt_test. rewrite !rl_next. destruct (next_insn l) as [[]|]; cbn [option_map Proof_Labels.rl map_lbl]; try reflexivity;
    destruct (next_insn r) as [[]|]; cbn [option_map Proof_Labels.rl map_lbl]; try reflexivity;
    match goal with |- context [if ?x then _ else _] => destruct x end; reflexivity. }
  unfold alt_code. rewrite T. destruct (alt_test l r a) as [t|]; cbn [option_map]; unfold Proof_Labels.rlp.
  - cbn [map]. rewrite !map_app. destruct l; reflexivity.
  - cbn [map]. rewrite !map_app. reflexivity.
Qed.
Lemma rl_prefix : forall c, cap_prefix (rlp c) = cap_prefix c.
Proof. induction c as [|i c IH]; [reflexivity|]. destruct i; try reflexivity; cbn [Proof_Labels.rlp map Proof_Labels.rl map_lbl cap_prefix]; unfold Proof_Labels.rlp in IH; rewrite IH; reflexivity. Qed.
Lemma rl_cap : forall c id, cap_code (rlp c) id = rlp (cap_code c id).
Proof.
  intros c id. unfold cap_code. rewrite rl_prefix. destruct (cap_prefix c) as [i back]. unfold Proof_Labels.rlp. rewrite map_length.
  destruct ((i =? 0) || (256 <=? back)%N); [cbn [map]; rewrite map_app; reflexivity|].
  destruct (i =? List.length c); [rewrite map_app; reflexivity|]. rewrite !map_app, firstn_map, skipn_map. reflexivity.
Qed.
Lemma rl_skip : forall c, search_skip (rlp c) = search_skip c.
Proof. intro c. unfold search_skip. rewrite rl_next. destruct (next_insn c) as [[]|]; reflexivity. Qed.
Lemma rl_ret : forall c i had, next_insn_label_aux (rlp c) i had = next_insn_label_aux c i had.
Proof. induction c as [|x c IH]; intros i had; [reflexivity|]. destruct x; cbn [Proof_Labels.rlp map Proof_Labels.rl map_lbl next_insn_label_aux]; first [reflexivity|apply IH]. Qed.
Lemma rl_upd : forall c i x, upd i (rl x) (rlp c) = rlp (upd i x c).
Proof. induction c as [|y c IH]; intros [|i] x; try reflexivity. cbn [Proof_Labels.rlp map upd]. f_equal. apply IH. Qed.
Lemma rl_assoc : forall ls x, assoc (rln g ls) x = option_map g (assoc ls x).
Proof. induction ls as [|[k l] ls IH]; intro x; [reflexivity|]. cbn [rln map fst snd assoc]. destruct (String.eqb _ _); [reflexivity|apply IH]. Qed.
Lemma rl_skipn : forall i c, skipn i (rlp c) = rlp (skipn i c).
Proof. intros. apply skipn_map. Qed.
Lemma rl_resolve : forall n i ls c, resolve_loop n i (rln g ls) (rlp c) = match resolve_loop n i ls c with inl x => inl x | inr c => inr (rlp c) end.
Proof.
  induction n as [|n IH]; intros i ls c; [reflexivity|]. cbn [resolve_loop]. unfold Proof_Labels.rlp at 1. rewrite nth_error_map.
  destruct (nth_error c i) as [x|]; cbn [option_map]; [|apply IH].
  destruct x; cbn [Proof_Labels.rl map_lbl]; try apply IH. rewrite rl_assoc. destruct (assoc ls name) as [l|]; cbn [option_map]; [|reflexivity].
  rewrite rl_skipn, rl_next.
  assert (E : next_insn_label (rlp (skipn (S i) c)) = next_insn_label (skipn (S i) c)) by apply rl_ret.
  change (ICall (g l)) with (rl (ICall l)). rewrite rl_upd.
  destruct (next_insn (skipn (S i) c)) as [[]|]; cbn [option_map Proof_Labels.rl map_lbl]; try apply IH.
  rewrite E. change (IJump (g l)) with (rl (IJump l)). change INop with (rl INop) at 1.
  destruct (next_insn_label (skipn (S i) c)) as [[ret|] [|]]; rewrite ?rl_upd; apply IH.
Qed.
End Relabel.

Section Drawn.
Variable thr : nat.
Variable lab : nat -> nat.
Definition num (l : nat) : nat := lab (pred l).
Notation cd := (compile_d thr lab).
Notation cf := (compile_f thr).
Section Loop.
Variable fuel : nat.
Variable start : string.
Variable used : list string.
Fixpoint dloop (ds : list (string * pattern)) (st : cstate) (code : program) (lbls : list (string * nat)) {struct ds} : cres * list (string * nat) :=
  match ds with
  | [] => (COk code st, lbls)
  | (k, v) :: ds =>
      if negb (String.eqb k start) && negb (str_mem k used) then dloop ds st code lbls
      else
        let (lbl, st) := draw lab st in
        match cd fuel v st with
        | COk fn st => dloop ds st (code ++ [ILabel lbl] ++ fn ++ [IReturn]) (lbls ++ [(k, lbl)])
        | r => (r, lbls)
        end
  end.
End Loop.
Lemma compile_d_grammar : forall fuel defs0 start st, cd (S fuel) (PGrammar defs0 start) st =
  let defs := inline_all thr defs0 in
  match used_names defs with
  | [] => match assoc defs start with Some q => cd fuel q st | None => CNilPanic end
  | _ =>
      match dloop fuel start (used_names defs) defs (CState (S (cs_uniq st)) (cs_memo st)) [IOpenCall start; IJump (lab (cs_uniq st))] [] with
      | (COk code st1, lbls) => match resolve lbls code with inl x => CNotFound x | inr code => COk (code ++ [ILabel (lab (cs_uniq st))]) st1 end
      | (r, _) => r
      end
  end.
Proof. intros. reflexivity. Qed.
Lemma bind_rl : forall r k k', (forall c st, k' (rlp num c) st = rlr num (k c st)) -> cbind (rlr num r) k' = rlr num (cbind r k).
Proof. intros [] k k' H; try reflexivity. apply H. Qed.
Lemma loop_rl : forall fuel start used, (forall p st, cd fuel p st = rlr num (cf fuel p st)) -> forall ds st code lbls,
  dloop fuel start used ds st (rlp num code) (rln num lbls) =
  (rlr num (fst (gloop thr fuel start used ds st code lbls)), rln num (snd (gloop thr fuel start used ds st code lbls))).
Proof.
  intros fuel start used IH. induction ds as [|[k v] ds IHd]; intros st code lbls; [reflexivity|]. cbn [dloop gloop].
  destruct (negb _ && negb _); [apply IHd|]. cbn [draw new_label]. rewrite IH. cbn [cs_uniq cs_memo].
  destruct (cf fuel v _) as [fn st'| | |]; cbn [rlr fst snd]; try reflexivity. rewrite <- IHd. f_equal.
  - unfold rlp. rewrite !map_app. reflexivity.
  - unfold rln. rewrite map_app. reflexivity.
Qed.
Ltac done_ := cbn [rlr draw new_label cs_uniq cs_memo]; unfold rlp; repeat (rewrite ?map_app; cbn [map]); reflexivity.
Theorem drawn_relabel : forall fuel p st, cd fuel p st = rlr num (cf fuel p st).
Proof.
  induction fuel as [|fuel IH]; intros p st; [reflexivity|].
  destruct p as [pl pr|pl pr|q|q|q|q|q|q id|q id|q ck id flag|defs start|q|s|str|x [q|]|n|m [q|]|op|].
  - cbn [compile_d compile_f]. destruct (combine (get pl) (get pr)); [reflexivity|]. rewrite IH. apply bind_rl. intros l st1. rewrite IH.
    apply bind_rl. intros r st2. cbn [draw new_label cs_uniq cs_memo rlr]. rewrite <- rl_alt. reflexivity.
  - cbn [compile_d compile_f]. rewrite IH. apply bind_rl. intros l st1. rewrite IH. apply bind_rl. intros r st2. done_.
  - cbn [compile_d compile_f]. destruct (get q); try reflexivity; rewrite IH; apply bind_rl; intros l st1; done_.
  - cbn [compile_d compile_f]. rewrite IH. apply bind_rl. intros l st1. rewrite IH. apply bind_rl. intros r st2. done_.
  - cbn [compile_d compile_f]. destruct (get q) as [| | | | | | | | | | | | |[|b [|]]| | | | |]; try apply IH; done_.
  - cbn [compile_d compile_f]. rewrite IH. apply bind_rl. intros l st1. done_.
  - cbn [compile_d compile_f]. rewrite IH. apply bind_rl. intros l st1. done_.
  - cbn [compile_d compile_f]. rewrite IH. apply bind_rl. intros l st1. rewrite rl_cap. reflexivity.
  - cbn [compile_d compile_f]. cbn [draw new_label]. rewrite IH. apply bind_rl. intros l st1. done_.
  - cbn [compile_d compile_f]. cbn [draw new_label]. rewrite IH. apply bind_rl. intros l st1. done_.
  - rewrite compile_d_grammar, compile_grammar. cbv zeta. destruct (used_names (inline_all thr defs)) as [|u us] eqn:Eu.
    + destruct (assoc _ _); [apply IH|reflexivity].
    + pose proof (loop_rl fuel start (u :: us) IH (inline_all thr defs) (CState (S (cs_uniq st)) (cs_memo st)) [IOpenCall start; IJump (S (cs_uniq st))] []) as E.
      change (rlp num [IOpenCall start; IJump (S (cs_uniq st))]) with [IOpenCall start; IJump (lab (cs_uniq st))] in E. change (rln num []) with (@nil (string * nat)) in E.
      rewrite E. destruct (gloop _ _ _ _ _ _ _ _) as [[code st1| | |] lbls]; cbn [fst snd rlr]; try reflexivity.
      unfold resolve. unfold rlp at 1. rewrite map_length. rewrite rl_resolve. destruct (resolve_loop _ _ _ _); [reflexivity|].
      cbn [rlr]. unfold rlp. rewrite map_app. reflexivity.
  - cbn [compile_d compile_f]. rewrite IH. apply bind_rl. intros l st1. rewrite rl_skip. apply IH.
  - reflexivity.
  - cbn [compile_d compile_f rlr]. f_equal. unfold rlp. rewrite map_map. reflexivity.
  - apply IH.
  - reflexivity.
  - reflexivity.
  - cbn [compile_d compile_f]. rewrite IH. apply bind_rl. intros l st1. reflexivity.
  - reflexivity.
  - reflexivity.
  - reflexivity.
Qed.
End Drawn.

(* ---------- the labels of a program ---------- *)
Definition lbl_any (i : insn) : option nat := match i with ILabel l => Some l | _ => insn_lbl i end.
Definition inr_ (n : nat) (i : insn) : Prop := match lbl_any i with Some l => 1 <= l <= n | None => True end.
Definition bd (n : nat) (c : program) : Prop := Forall (inr_ n) c.
Lemma bd_mono : forall n m c, n <= m -> bd n c -> bd m c.
Proof. intros n m c H B. eapply Forall_impl; [|exact B]. intros i K. unfold inr_ in *. destruct (lbl_any i); [lia|exact Logic.I]. Qed.
Lemma bd_app : forall n a b, bd n a -> bd n b -> bd n (a ++ b).
Proof. intros. apply Forall_app. split; assumption. Qed.
Lemma bd_upd : forall n c i x, bd n c -> inr_ n x -> bd n (upd i x c).
Proof. induction c as [|y c IH]; intros [|i] x B X; inversion B; subst; cbn [upd]; try constructor; try assumption. apply IH; assumption. Qed.
Lemma bd_at : forall n c i x, bd n c -> nth_error c i = Some x -> inr_ n x.
Proof. intros n c i x B E. apply nth_error_In in E. exact (proj1 (Forall_forall _ _) B x E). Qed.
Lemma bd_next : forall n c x, bd n c -> next_insn c = Some x -> inr_ n x.
Proof. induction c as [|y c IH]; intros x B E; [discriminate|]. inversion B; subst. cbn [next_insn] in E. destruct (is_label_or_nop y); [apply IH; assumption|]. injection E as <-. assumption. Qed.
Lemma bd_skipn : forall n i c, bd n c -> bd n (skipn i c).
Proof. intros n i c B. rewrite <- (firstn_skipn i c) in B. apply Forall_app in B. apply B. Qed.
Lemma bd_firstn : forall n i c, bd n c -> bd n (firstn i c).
Proof. intros n i c B. rewrite <- (firstn_skipn i c) in B. apply Forall_app in B. apply B. Qed.
Definition bds (m : nat) (ls : list (string * nat)) : Prop := Forall (fun x => 1 <= snd x <= m) ls.
Lemma bds_assoc : forall m ls x l, bds m ls -> assoc ls x = Some l -> 1 <= l <= m.
Proof. induction ls as [|[k v] ls IH]; intros x l B E; [discriminate|]. inversion B; subst. cbn [assoc] in E. destruct (String.eqb k x); [injection E as <-; assumption|]. eapply IH; eassumption. Qed.
Lemma bds_mono : forall n m ls, n <= m -> bds n ls -> bds m ls.
Proof. intros n m ls H B. eapply Forall_impl; [|exact B]. cbn. intros. lia. Qed.
Lemma bd_resolve : forall m ls, bds m ls -> forall n i c c', bd m c -> resolve_loop n i ls c = inr c' -> bd m c'.
Proof.
  intros m ls A. induction n as [|n IH]; intros i c c' B H; cbn [resolve_loop] in H; [injection H as <-; exact B|].
  destruct (nth_error c i) as [[]|]; try (eapply IH; eassumption).
  destruct (assoc ls name) as [l|] eqn:E; [|discriminate]. pose proof (bds_assoc _ _ _ _ A E) as A'.
  assert (G : forall code, bd m code -> bd m (upd i (IJump l) code)) by (intros code K; apply bd_upd; [exact K|exact A']).
  assert (GC : bd m (upd i (ICall l) c)) by (apply bd_upd; [exact B|exact A']).
  destruct (next_insn (skipn (S i) c)) as [[]|]; try (eapply IH; [exact GC|exact H]).
  destruct (next_insn_label (skipn (S i) c)) as [[ret|] [|]]; (eapply IH; [|exact H]); apply G; try exact B. apply bd_upd; [exact B|exact Logic.I].
Qed.
Section Bound.
Variable thr : nat.
Notation cf := (compile_f thr).
Definition ok_ (st st' : cstate) (c : program) : Prop := cs_uniq st <= cs_uniq st' /\ bd (cs_uniq st') c.
Lemma loop_bd : forall fuel start used, (forall p st c st', cf fuel p st = COk c st' -> ok_ st st' c) -> forall ds st code lbls code' st' lbls',
  gloop thr fuel start used ds st code lbls = (COk code' st', lbls') -> bd (cs_uniq st) code -> bds (cs_uniq st) lbls ->
  ok_ st st' code' /\ bds (cs_uniq st') lbls'.
Proof.
  intros fuel start used IH. induction ds as [|[k v] ds IHd]; intros st code lbls code' st' lbls' H B A; cbn [gloop] in H.
  - injection H as <- <- <-. split; [split; [lia|exact B]|exact A].
  - destruct (negb _ && negb _); [eapply IHd; eassumption|]. cbn [new_label] in H.
    destruct (cf fuel v _) as [fn st1| | |] eqn:E; try discriminate. destruct (IH _ _ _ _ E) as [U B1]. cbn [cs_uniq] in U.
    apply IHd in H.
    + destruct H as [[U2 B2] A2]. split; [split; [lia|exact B2]|exact A2].
    + apply bd_app; [eapply bd_mono; [|exact B]; lia|]. constructor; [cbn; lia|]. apply bd_app; [exact B1|]. constructor; [exact Logic.I|constructor].
    + apply Forall_app. split; [eapply bds_mono; [|exact A]; lia|]. constructor; [cbn [snd]; lia|constructor].
Qed.
Lemma bd_alt : forall n l r a b, bd n l -> bd n r -> 1 <= a <= n -> 1 <= b <= n -> bd n (alt_code l r a b).
Proof.
  intros n l r a b L R A B. unfold alt_code.
  assert (T : forall t, alt_test l r a = Some t -> inr_ n t).
  { intros t E. unfold alt_test in E. destruct (next_insn l) as [[]|]; try discriminate; destruct (next_insn r) as [[]|]; try discriminate;
    match type of E with (if ?x then _ else _) = _ => destruct x; [discriminate|] end; injection E as <-; exact A. }
  destruct (alt_test l r a) as [t|].
  - constructor; [apply T; reflexivity|]. apply bd_app; [destruct L; [constructor|assumption]|].
    apply bd_app; [constructor; [exact B|constructor; [exact A|constructor]]|]. apply bd_app; [exact R|]. constructor; [exact B|constructor].
  - constructor; [exact A|]. apply bd_app; [exact L|].
    apply bd_app; [constructor; [exact B|constructor; [exact A|constructor]]|]. apply bd_app; [exact R|]. constructor; [exact B|constructor].
Qed.
Lemma bd_cap : forall n c id, bd n c -> bd n (cap_code c id).
Proof.
  intros n c id B. unfold cap_code. destruct (cap_prefix c) as [i back].
  destruct ((i =? 0) || _); [constructor; [exact Logic.I|]; apply bd_app; [exact B|repeat constructor]|].
  destruct (i =? List.length c); [apply bd_app; [exact B|repeat constructor]|].
  apply bd_app; [apply bd_firstn; exact B|]. constructor; [exact Logic.I|]. apply bd_app; [apply bd_skipn; exact B|repeat constructor].
Qed.
Ltac bds_ := repeat first [assumption | apply bd_app | apply Forall_nil | (apply Forall_cons; [cbn; try exact Logic.I; lia|])].
Ltac sub1 H c st IH := let E := fresh "E" in apply cbind_ok in H; destruct H as (c & st & E & H); apply IH in E; let U := fresh "U" in let B := fresh "B" in destruct E as [U B].
Theorem compile_bd : forall fuel p st c st', cf fuel p st = COk c st' -> ok_ st st' c.
Proof.
  induction fuel as [|fuel IH]; intros p st c st' H; [discriminate|].
  assert (LEAF : forall i, COk [i] st = COk c st' -> lbl_any i = None -> ok_ st st' c).
  { intros i E K. injection E as <- <-. split; [lia|]. constructor; [unfold inr_; rewrite K; exact Logic.I|constructor]. }
  assert (UP : forall n c, n <= cs_uniq st' -> bd n c -> bd (cs_uniq st') c) by (intros; eapply bd_mono; eassumption).
  destruct p as [pl pr|pl pr|q|q|q|q|q|q id|q id|q ck id flag|defs start|q|s|str|x [q|]|n|m [q|]|op|].
  - cbn [compile_f] in H. destruct (combine (get pl) (get pr)); [eapply LEAF; [exact H|reflexivity]|]. sub1 H l st1 IH. sub1 H r st2 IH.
    cbn [new_label cs_uniq cs_memo] in H. injection H as <- <-. cbn [cs_uniq] in *. split; cbn [cs_uniq]; [lia|].
    apply bd_alt; try lia; (eapply UP; [|eassumption]; lia).
  - cbn [compile_f] in H. sub1 H l st1 IH. sub1 H r st2 IH. injection H as <- <-. split; [lia|]. apply bd_app; (eapply UP; [|eassumption]; lia).
  - cbn [compile_f] in H. destruct (get q); try (eapply LEAF; [exact H|reflexivity]);
      sub1 H l st1 IH; cbn [new_label cs_uniq cs_memo] in H; injection H as <- <-; cbn [cs_uniq] in *;
      (split; cbn [cs_uniq]; [lia|]); (apply UP in B; [|lia]); bds_.
  - cbn [compile_f] in H. sub1 H l st1 IH. sub1 H r st2 IH. injection H as <- <-. split; [lia|]. apply bd_app; (eapply UP; [|eassumption]; lia).
  - cbn [compile_f] in H. destruct (get q) as [| | | | | | | | | | | | |[|b [|]]| | | | |]; try (eapply IH; exact H);
      cbn [new_label] in H; injection H as <- <-; (split; cbn [cs_uniq]; [lia|]); bds_.
  - cbn [compile_f] in H. sub1 H l st1 IH. cbn [new_label] in H. injection H as <- <-. cbn [cs_uniq] in *. split; cbn [cs_uniq]; [lia|].
    assert (B' : bd (S (cs_uniq st1)) l) by (eapply UP; [|exact B]; lia). bds_.
  - cbn [compile_f] in H. sub1 H l st1 IH. cbn [new_label] in H. injection H as <- <-. cbn [cs_uniq] in *. split; cbn [cs_uniq]; [lia|].
    assert (B' : bd (S (S (cs_uniq st1))) l) by (eapply UP; [|exact B]; lia). bds_.
  - cbn [compile_f] in H. sub1 H l st1 IH. injection H as <- <-. split; [exact U|apply bd_cap; exact B].
  - cbn [compile_f] in H. cbn [new_label] in H. sub1 H l st1 IH. injection H as <- <-. cbn [cs_uniq] in *. split; [lia|]. bds_.
  - cbn [compile_f] in H. cbn [new_label] in H. sub1 H l st1 IH. injection H as <- <-. cbn [cs_uniq] in *. split; [lia|]. bds_.
  - rewrite compile_grammar in H. cbv zeta in H. destruct (used_names (inline_all thr defs)) as [|u us] eqn:Eu.
    + destruct (assoc _ _); [eapply IH; exact H|discriminate].
    + destruct (gloop _ _ _ _ _ _ _ _) as [[code st1| | |] lbls] eqn:El; try discriminate.
      destruct (resolve lbls code) as [x|code'] eqn:Er; [discriminate|]. injection H as <- <-.
      apply loop_bd in El; [|exact IH| |constructor].
      * destruct El as [[U B] A]. cbn [cs_uniq] in U. split; [lia|]. apply bd_app; [eapply bd_resolve; eassumption|]. constructor; [cbn; lia|constructor].
      * cbn [cs_uniq]. bds_.
  - cbn [compile_f] in H. sub1 H l st1 IH. apply IH in H. destruct H as [U2 B2]. split; [lia|exact B2].
  - eapply LEAF; [exact H|reflexivity].
  - cbn [compile_f] in H. injection H as <- <-. split; [lia|]. apply Forall_forall. intros i Hi. apply in_map_iff in Hi. destruct Hi as (b & <- & _). exact Logic.I.
  - eapply IH. exact H.
  - eapply LEAF; [exact H|reflexivity].
  - eapply LEAF; [exact H|reflexivity].
  - cbn [compile_f] in H. sub1 H l st1 IH. injection H as <- <-. split; [exact U|]. constructor; [exact Logic.I|exact B].
  - cbn [compile_f] in H. injection H as <- <-. split; [lia|]. bds_.
  - eapply LEAF; [exact H|reflexivity].
  - cbn [compile_f] in H. injection H as <- <-. split; [lia|constructor].
Qed.
End Bound.

(* ---------- Optimize and Encode ---------- *)
Section Inj.
Variable g : nat -> nat.
Variable n : nat.
Hypothesis inj : forall a b, 1 <= a <= n -> 1 <= b <= n -> g a = g b -> a = b.
Notation rl := (rl g).
Notation rlp := (rlp g).
Lemma eqb_inj : forall a b, 1 <= a <= n -> 1 <= b <= n -> (g a =? g b) = (a =? b).
Proof. intros a b A B. destruct (Nat.eqb_spec a b) as [->|N]; [apply Nat.eqb_refl|]. apply Nat.eqb_neq. intro E. apply N, inj; assumption. Qed.
Lemma index_inj : forall c l i acc, bd n c -> 1 <= l <= n -> lbl_index_aux (rlp c) (g l) i acc = lbl_index_aux c l i acc.
Proof.
  induction c as [|x c IH]; intros l i acc B L; [reflexivity|]. inversion B; subst.
  destruct x; cbn [Proof_Labels.rlp map Proof_Labels.rl map_lbl lbl_index_aux]; try (apply IH; assumption). rewrite eqb_inj by assumption. apply IH; assumption.
Qed.
Lemma offset_inj : forall c l i acc, bd n c -> 1 <= l <= n -> lbl_offset_aux (rlp c) (g l) i acc = lbl_offset_aux c l i acc.
Proof.
  induction c as [|x c IH]; intros l i acc B L; [reflexivity|]. inversion B; subst.
  destruct x; cbn [Proof_Labels.rlp map Proof_Labels.rl map_lbl lbl_offset_aux]; try (apply IH; assumption). rewrite eqb_inj by assumption. apply IH; assumption.
Qed.
Lemma step_inj : forall lbl lbl' p i, bd n p -> (forall l, 1 <= l <= n -> lbl' (g l) = lbl l) ->
  opt_step lbl' (rlp p) i = rlp (opt_step lbl p i) /\ bd n (opt_step lbl p i).
Proof.
  intros lbl lbl' p i B L. unfold opt_step. assert (N : forall k, nth_error (rlp p) k = option_map rl (nth_error p k)) by (intro k; apply nth_error_map). rewrite N.
  destruct (nth_error p i) as [x|] eqn:E; cbn [option_map]; [|split; [reflexivity|exact B]].
  pose proof (bd_at _ _ _ _ B E) as X. destruct x; cbn [Proof_Labels.rl map_lbl]; try (split; [reflexivity|exact B]).
  - rewrite L by exact X. rewrite rl_skipn, rl_next.
    destruct (next_insn (skipn (lbl l) p)) as [j|] eqn:Ej; cbn [option_map]; [|split; [reflexivity|exact B]].
    apply bd_next with (n := n) in Ej; [|apply bd_skipn; exact B].
    destruct j; cbn [Proof_Labels.rl map_lbl]; try (split; [reflexivity|exact B]);
      (split; [rewrite <- rl_upd; reflexivity|apply bd_upd; assumption]).
  - rewrite N. destruct (nth_error p (S i)) as [y|]; cbn [option_map]; [|split; [reflexivity|exact B]].
    destruct y; cbn [Proof_Labels.rl map_lbl]; try (split; [reflexivity|exact B]);
      (split; [|apply bd_upd; [apply bd_upd; assumption|exact Logic.I]]).
    + rewrite <- (rl_upd g _ (S i) INop), <- (rl_upd g p i (ITestChar b l)). reflexivity.
    + rewrite <- (rl_upd g _ (S i) INop), <- (rl_upd g p i (ITestSet s l)). reflexivity.
    + rewrite <- (rl_upd g _ (S i) INop), <- (rl_upd g p i (ITestAny n0 l)). reflexivity.
Qed.
Lemma optimize_inj : forall c, bd n c -> optimize (rlp c) = rlp (optimize c) /\ bd n (optimize c).
Proof.
  intros c B. unfold optimize. assert (L : forall l, 1 <= l <= n -> lbl_index (rlp c) (g l) = lbl_index c l) by (intros; apply index_inj; assumption).
  unfold Proof_Labels.rlp at 2. rewrite map_length. revert L. generalize (lbl_index (rlp c)) (lbl_index c). intros f f' L.
  generalize (seq 0 (List.length c)). intro is. revert c B. induction is as [|i is IH]; intros c B; cbn [fold_left]; [split; [reflexivity|exact B]|].
  destruct (step_inj f' f c i B L) as [E B']. rewrite E. apply IH. exact B'.
Qed.
Lemma args_inj : forall lbl lbl' k i, inr_ n i -> (forall l, 1 <= l <= n -> lbl' (g l) = lbl l) -> encode_args lbl' k (rl i) = encode_args lbl k i.
Proof. intros lbl lbl' k i X L. destruct i; cbn [Proof_Labels.rl map_lbl encode_args]; try reflexivity; rewrite L by exact X; reflexivity. Qed.
Lemma encode_inj : forall c, bd n c -> encode (rlp c) = encode c.
Proof.
  intros c B. unfold encode. assert (L : forall l, 1 <= l <= n -> lbl_offset (rlp c) (g l) = lbl_offset c l) by (intros; apply offset_inj; assumption).
  revert L. generalize (lbl_offset (rlp c)) (lbl_offset c). intros f f' L.
  assert (E : forall k, encode_loop f (rlp c) k = encode_loop f' c k); [|rewrite E; reflexivity].
  induction c as [|i c IH]; intro k; [reflexivity|]. inversion B; subst. cbn [Proof_Labels.rlp map encode_loop]. rewrite rl_nop, (args_inj f' f) by assumption.
  destruct (is_label_or_nop i); [apply IH; assumption|]. destruct (encode_args f' k i) as [[args k']|]; [|reflexivity].
  replace (opcode (rl i)) with (opcode i) by (destruct i; reflexivity). apply IH. assumption.
Qed.
End Inj.

Theorem drawn_same : forall thr lab fuel p m c st, compile_drawn thr lab fuel p (CState 0 m) = COk c st ->
  (forall i j, i < cs_uniq st -> j < cs_uniq st -> lab i = lab j -> i = j) ->
  exists c', compile thr fuel p (CState 0 m) = COk c' st /\ encode c' = encode c.
Proof.
  intros thr lab fuel p m c st H I. unfold compile_drawn in H. rewrite drawn_relabel in H. unfold compile.
  destruct (compile_f thr fuel p (CState 0 m)) as [c0 st0| | |] eqn:E; try discriminate. cbn [rlr] in H. injection H as <- <-.
  destruct (compile_bd _ _ _ _ _ _ E) as [_ B]. exists (optimize c0). split; [reflexivity|].
  assert (J : forall a b, 1 <= a <= cs_uniq st0 -> 1 <= b <= cs_uniq st0 -> num lab a = num lab b -> a = b).
  { intros a b A A' K. unfold num in K. apply I in K; lia. }
  destruct (optimize_inj _ _ J _ B) as [E1 B1]. rewrite E1. symmetry. apply (encode_inj _ _ J). exact B1.
Qed.

(* ---------- one goroutine after the other ---------- *)
Section Shift.
Variable thr : nat.
Variable u : nat.
Notation cd := (compile_d thr (fun i => S (i + u))).
Notation cf := (compile_f thr).
Definition sh (st : cstate) : cstate := CState (cs_uniq st + u) (cs_memo st).
Definition shR (r' r : cres) : Prop := match r' with COk c st => r = COk c (sh st) | x => r = x end.
Lemma bind_sh : forall r' r k' k, shR r' r -> (forall c st, shR (k' c st) (k c (sh st))) -> shR (cbind r' k') (cbind r k).
Proof. intros [c st| | |] r k' k H K; cbn [shR] in H; rewrite H; cbn [cbind]; [apply K|reflexivity|reflexivity|reflexivity]. Qed.
Lemma loop_sh : forall fuel start used, (forall p st, shR (cd fuel p st) (cf fuel p (sh st))) -> forall ds st code lbls,
  shR (fst (dloop thr (fun i => S (i + u)) fuel start used ds st code lbls)) (fst (gloop thr fuel start used ds (sh st) code lbls)) /\
  snd (dloop thr (fun i => S (i + u)) fuel start used ds st code lbls) = snd (gloop thr fuel start used ds (sh st) code lbls).
Proof.
  intros fuel start used IH. induction ds as [|[k v] ds IHd]; intros st code lbls; [split; reflexivity|]. cbn [dloop gloop].
  destruct (negb _ && negb _); [apply IHd|]. cbn [draw new_label]. specialize (IH v (CState (S (cs_uniq st)) (cs_memo st))).
  unfold sh in IH at 1. cbn [cs_uniq cs_memo Nat.add] in IH. unfold sh. cbn [cs_uniq cs_memo].
  destruct (cd fuel v _) as [fn st'| | |]; cbn [shR] in IH; rewrite IH; [apply IHd|split; reflexivity|split; reflexivity|split; reflexivity].
Qed.
Theorem drawn_shift : forall fuel p st, shR (cd fuel p st) (cf fuel p (sh st)).
Proof.
  induction fuel as [|fuel IH]; intros p st; [reflexivity|].
  destruct p as [pl pr|pl pr|q|q|q|q|q|q id|q id|q ck id flag|defs start|q|s|str|x [q|]|n|m [q|]|op|].
  - cbn [compile_d compile_f]. destruct (combine (get pl) (get pr)); [reflexivity|]. apply bind_sh; [apply IH|]. intros l st1. apply bind_sh; [apply IH|]. intros r st2. reflexivity.
  - cbn [compile_d compile_f]. apply bind_sh; [apply IH|]. intros l st1. apply bind_sh; [apply IH|]. intros r st2. reflexivity.
  - cbn [compile_d compile_f]. destruct (get q); try reflexivity; apply bind_sh; try apply IH; intros l st1; reflexivity.
  - cbn [compile_d compile_f]. apply bind_sh; [apply IH|]. intros l st1. apply bind_sh; [apply IH|]. intros r st2. reflexivity.
  - cbn [compile_d compile_f]. destruct (get q) as [| | | | | | | | | | | | |[|b [|]]| | | | |]; try apply IH; reflexivity.
  - cbn [compile_d compile_f]. apply bind_sh; [apply IH|]. intros l st1. reflexivity.
  - cbn [compile_d compile_f]. apply bind_sh; [apply IH|]. intros l st1. reflexivity.
  - cbn [compile_d compile_f]. apply bind_sh; [apply IH|]. intros l st1. reflexivity.
  - cbn [compile_d compile_f]. cbn [draw new_label]. apply bind_sh; [apply (IH (get q) (CState (S (cs_uniq st)) (cs_memo st)))|]. intros l st1. reflexivity.
  - cbn [compile_d compile_f]. cbn [draw new_label]. apply bind_sh; [apply (IH (get q) (CState (S (cs_uniq st)) (cs_memo st)))|]. intros l st1. reflexivity.
  - rewrite compile_d_grammar, compile_grammar. cbv zeta. destruct (used_names (inline_all thr defs)) as [|x us] eqn:Eu.
    + destruct (assoc _ _); [apply IH|reflexivity].
    + pose proof (loop_sh fuel start (x :: us) IH (inline_all thr defs) (CState (S (cs_uniq st)) (cs_memo st)) [IOpenCall start; IJump (S (cs_uniq st + u))] []) as [E1 E2].
      unfold sh at 1 in E1. unfold sh in E2. cbn [cs_uniq cs_memo Nat.add] in E1, E2. cbn [sh cs_uniq cs_memo].
      destruct (dloop _ _ _ _ _ _ _ _ _) as [r' l']. destruct (gloop _ _ _ _ _ _ _ _) as [r l]. cbn [fst snd] in E1, E2. subst l'.
      destruct r' as [c st1| | |]; cbn [shR] in E1; rewrite E1; [|reflexivity|reflexivity|reflexivity]. destruct (resolve l c); reflexivity.
  - cbn [compile_d compile_f]. apply bind_sh; [apply IH|]. intros l st1. apply IH.
  - reflexivity.
  - reflexivity.
  - apply IH.
  - reflexivity.
  - reflexivity.
  - cbn [compile_d compile_f]. apply bind_sh; [apply IH|]. intros l st1. reflexivity.
  - reflexivity.
  - reflexivity.
  - reflexivity.
Qed.
End Shift.
(** with labels in order the copy of the compiler is the compiler *)
Theorem drawn_in_order : forall thr fuel p st, compile_drawn thr S fuel p st = compile thr fuel p st.
Proof.
  intros thr fuel p st. unfold compile_drawn, compile. rewrite drawn_relabel. destruct (compile_f thr fuel p st) as [c st'| | |] eqn:E; try reflexivity.
  cbn [rlr]. do 2 f_equal. destruct (compile_bd _ _ _ _ _ _ E) as [_ B]. clear E. unfold rlp. rewrite <- (map_id c) at 2. apply map_ext_in.
  intros i Hi. apply (proj1 (Forall_forall _ _) B) in Hi. unfold inr_ in Hi. destruct i; cbn [rl map_lbl lbl_any insn_lbl] in *; try reflexivity;
    (f_equal; destruct l; [lia|reflexivity]).
Qed.
Theorem compile_from : forall thr u fuel p m,
  match compile_drawn thr (fun i => S (i + u)) fuel p (CState 0 m) with
  | COk c st => compile thr fuel p (CState u m) = COk c (CState (cs_uniq st + u) (cs_memo st))
  | r => compile thr fuel p (CState u m) = r
  end.
Proof.
  intros thr u fuel p m. unfold compile_drawn, compile. pose proof (drawn_shift thr u fuel p (CState 0 m)) as H. unfold sh in H at 1. cbn [cs_uniq cs_memo Nat.add] in H.
  destruct (compile_d _ _ _ _ _) as [c st| | |]; cbn [shR] in H; rewrite H; reflexivity.
Qed.
Theorem compile_any : forall thr u fuel p m c st, compile thr fuel p (CState u m) = COk c st ->
  exists c0 st0, compile thr fuel p (CState 0 m) = COk c0 st0 /\ encode c0 = encode c.
Proof.
  intros thr u fuel p m c st H. pose proof (compile_from thr u fuel p m) as K. destruct (compile_drawn _ _ _ _ _) as [c1 st1| | |] eqn:E; rewrite H in K; try discriminate.
  injection K as <- ->. destruct (drawn_same _ _ _ _ _ _ _ E) as (c0 & H0 & E0); [intros i j _ _ Q; lia|]. exists c0, st1. auto.
Qed.
(** failures do not depend on the labels either *)
Theorem compile_any0 : forall thr u fuel p m c0 st0, compile thr fuel p (CState 0 m) = COk c0 st0 ->
  exists c st, compile thr fuel p (CState u m) = COk c st /\ encode c = encode c0.
Proof.
  intros thr u fuel p m c0 st0 H. pose proof (compile_from thr u fuel p m) as K.
  destruct (compile_drawn thr (fun i => S (i + u)) fuel p (CState 0 m)) as [c1 st1| | |] eqn:E.
  - destruct (drawn_same _ _ _ _ _ _ _ E) as (c' & H0 & E0); [intros i j _ _ Q; lia|]. rewrite H in H0. injection H0 as <- <-. eexists _, _. split; [exact K|symmetry; exact E0].
  - exfalso. unfold compile_drawn in E. rewrite drawn_relabel in E. unfold compile in H. destruct (compile_f thr fuel p (CState 0 m)); discriminate.
  - exfalso. unfold compile_drawn in E. rewrite drawn_relabel in E. unfold compile in H. destruct (compile_f thr fuel p (CState 0 m)); discriminate.
  - exfalso. unfold compile_drawn in E. rewrite drawn_relabel in E. unfold compile in H. destruct (compile_f thr fuel p (CState 0 m)); discriminate.
Qed.

(* ---------- calls of NewLabel that do not overlap ---------- *)
Definition calm (s : counter) : Prop := forall g, n_phase s g = Idle.
Lemma call_apart : forall s g, calm s -> let s' := label_step (label_step (label_step s g) g) g in
  n_id s' = S (n_id s) /\ n_out s' = n_out s ++ [(g, S (n_id s))] /\ calm s'.
Proof.
  intros s g C s'. assert (R : forall f x, set_phase f g x g = x) by (intros; unfold set_phase; rewrite Nat.eqb_refl; reflexivity).
  unfold s', label_step. rewrite (C g). cbn [n_phase n_id n_out]. rewrite R. cbn [n_phase n_id n_out]. rewrite R. cbn [n_phase n_id n_out].
  split; [reflexivity|]. split; [reflexivity|]. intro k. cbn [n_phase]. unfold set_phase. destruct (k =? g); [reflexivity|apply C].
Qed.
Lemma run_apart : forall ks s, calm s -> n_out (fold_left label_step (flat_map (fun k => [k; k; k]) ks) s) = n_out s ++ List.combine ks (seq (S (n_id s)) (List.length ks)).
Proof.
  induction ks as [|k ks IH]; intros s C; [cbn; rewrite app_nil_r; reflexivity|]. cbn [flat_map app fold_left].
  destruct (call_apart s k C) as (A & B & D). rewrite IH by exact D. rewrite A, B, <- app_assoc. reflexivity.
Qed.
Lemma map_snd_combine : forall (a b : list nat), List.length a = List.length b -> map snd (List.combine a b) = b.
Proof. induction a as [|x a IH]; intros [|y b] H; try discriminate; [reflexivity|]. cbn [List.combine map snd]. f_equal. apply IH. injection H as H. exact H. Qed.
Lemma filter_nodup : forall (l : list (nat * nat)) f, NoDup (map snd l) -> NoDup (map snd (filter f l)).
Proof.
  induction l as [|x l IH]; intros f N; [constructor|]. inversion N; subst. cbn [filter]. destruct (f x); [|apply IH; assumption].
  cbn [map]. constructor; [|apply IH; assumption]. intro K. apply H1. apply in_map_iff in K. destruct K as (y & E & K). apply filter_In in K. apply in_map_iff. exists y. tauto.
Qed.
Lemma apart_nodup : forall u ks g, NoDup (drawn g (label_run u (flat_map (fun k => [k; k; k]) ks))).
Proof.
  intros u ks g. unfold drawn, label_run. rewrite run_apart by (intro; reflexivity). cbn [n_out n_id app]. apply filter_nodup.
  rewrite map_snd_combine by (rewrite seq_length; reflexivity). apply seq_NoDup.
Qed.

Definition mcalm (s : memo_counter) : Prop := forall g, k_phase s g = MIdle.
Lemma memo_apart : forall s g, mcalm s -> let s' := memo_step (memo_step (memo_step s g) g) g in
  k_id s' = S (k_id s) /\ k_out s' = k_out s ++ [(g, k_id s)] /\ mcalm s'.
Proof.
  intros s g C s'. assert (R : forall f x, set_memo_phase f g x g = x) by (intros; unfold set_memo_phase; rewrite Nat.eqb_refl; reflexivity).
  unfold s', memo_step. rewrite (C g). cbn [k_phase k_id k_out]. rewrite R. cbn [k_phase k_id k_out]. rewrite R. cbn [k_phase k_id k_out].
  split; [reflexivity|]. split; [reflexivity|]. intro k. cbn [k_phase]. unfold set_memo_phase. destruct (k =? g); [reflexivity|apply C].
Qed.
Lemma memo_run_apart : forall ks s, mcalm s -> k_out (fold_left memo_step (flat_map (fun k => [k; k; k]) ks) s) = k_out s ++ List.combine ks (seq (k_id s) (List.length ks)).
Proof.
  induction ks as [|k ks IH]; intros s C; [cbn; rewrite app_nil_r; reflexivity|]. cbn [flat_map app fold_left].
  destruct (memo_apart s k C) as (A & B & D). rewrite IH by exact D. rewrite A, B, <- app_assoc. reflexivity.
Qed.
Lemma memo_nodup : forall u ks, NoDup (map snd (k_out (memo_run u (flat_map (fun k => [k; k; k]) ks)))).
Proof.
  intros u ks. unfold memo_run. rewrite memo_run_apart by (intro; reflexivity). cbn [k_out k_id app].
  rewrite map_snd_combine by (rewrite seq_length; reflexivity). apply seq_NoDup.
Qed.

(* ---------- memo ids run out ---------- *)
(** (memo a)* *)
Definition many : pattern := PStar (PMemo (PLit [x61]) 0).
Definition many_code (m : Z) : program :=
  [ILabel 1; IMemoTreeOpen 3 m; ITestChar x61 2; INop; ICommit 4; ILabel 4; IMemoTreeInsert; ILabel 3; IMemoTree; IJump 1; ILabel 2; IMemoTreeClose m].
Lemma many_compile : forall m, compile 100 20 many (CState 0 m) = COk (many_code (m + 1)) (CState 4 (m + 1)).
Proof. intro m. cbv -[Z.add]. reflexivity. Qed.
Lemma many_encode : forall m, encode (many_code m) = None <-> encode_i16 m = None.
Proof.
  intro m. split; intro H; [|cbv -[encode_i16]; rewrite H; reflexivity]. destruct (encode_i16 m) as [bs|] eqn:E; [|reflexivity].
  cbv -[encode_i16] in H. rewrite E in H. discriminate.
Qed.
Lemma many_any : forall u m, exists c u', compile 100 20 many (CState u m) = COk c (CState u' (m + 1)) /\ encode c = encode (many_code (m + 1)).
Proof.
  intros u m. destruct (compile_any0 _ u _ _ _ _ _ (many_compile m)) as (c & st & H & E). exists c, (cs_uniq st). rewrite H. split; [|exact E].
  pose proof (compile_from 100 u 20 many m) as K. destruct (compile_drawn _ _ _ _ _) as [c1 st1| | |] eqn:D; rewrite H in K; try discriminate. injection K as <- ->.
  destruct (drawn_same _ _ _ _ _ _ _ D) as (c' & H' & _); [intros i j _ _ Q; lia|]. rewrite many_compile in H'. injection H' as _ <-. reflexivity.
Qed.
Lemma many_again : forall n u m, exists u', again 100 20 many n (CState u m) = Some (CState u' (m + Z.of_nat n)).
Proof.
  induction n as [|n IH]; intros u m; [exists u; cbn [again]; do 2 f_equal; lia|].
  destruct (IH u m) as (u1 & E). cbn [again]. rewrite E. destruct (many_any u1 (m + Z.of_nat n)) as (c & u2 & H & _). rewrite H. exists u2. do 2 f_equal. lia.
Qed.
Theorem many_runs_out : forall n, exists st c st', again 100 20 many n (CState 0 0) = Some st /\ compile 100 20 many st = COk c st' /\
  (encode c = None <-> (32767 <= Z.of_nat n)%Z).
Proof.
  intro n. destruct (many_again n 0 0) as (u & E). destruct (many_any u (0 + Z.of_nat n)) as (c & u' & H & K). eexists _, c, _. split; [exact E|]. split; [exact H|].
  rewrite K, many_encode. unfold encode_i16. destruct (Z.ltb_spec (0 + Z.of_nat n + 1) (-32768)) as [A|A]; [lia|].
  destruct (Z.leb_spec 32768 (0 + Z.of_nat n + 1)) as [B|B]; cbn [orb]; split; intro; try lia; try reflexivity; discriminate.
Qed.
