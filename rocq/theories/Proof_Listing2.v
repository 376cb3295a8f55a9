(** The instructions of compiled patterns are listed in full. *)
From Coq Require Import String.
From Verif Require Import Base Model_Charset Proof_Charset Model_Isa Model_Code Spec_Encode Proof_Fits Model_Pattern Proof_Eval
  Spec_Listing.
Local Open Scope list_scope.
Local Open Scope nat_scope.

(** also open calls, which are resolved later *)
Definition known (i : insn) : Prop := match i with IOpenCall _ => True | _ => listed i end.

Local Hint Constructors shown : core.
Local Hint Resolve cs_new_wf cs_add_wf cs_compl_wf cs_sub_wf : core.

Ltac inv H := inversion H; subst; clear H.

(* ---------- patterns ---------- *)

Lemma combine_wf : forall p q s, shown p -> shown q -> combine p q = Some s -> cs_wf s.
Proof.
  intros p q s Hp Hq H. unfold combine in H.
  destruct p; try discriminate H; destruct q; try discriminate H; inv Hp; inv Hq;
    repeat match type of H with context [match ?l with _ => _ end] => destruct l; try discriminate H end;
    inversion H; subst; auto.
Qed.

Lemma get_not_shown : forall p g r, shown p -> shown g -> shown r -> shown (get_not_seq p g r).
Proof.
  intros p g r Hp Hg Hr. unfold get_not_seq.
  assert (A : forall c, (match g with PLit [a] => Some (cs_new [a]) | PClass s => Some s | _ => None end) = Some c -> cs_wf c).
  { intros c H. destruct g; try discriminate H; [inv Hg; injection H as <-; assumption|].
    destruct str as [|a [|b l]]; try discriminate H. injection H as <-. auto. }
  destruct (match g with PLit [a] => Some (cs_new [a]) | PClass s => Some s | _ => None end) as [c|]; [|exact Hp].
  specialize (A c eq_refl). destruct r; auto; inv Hr.
  - auto.
  - destruct str as [|a [|b l]]; auto.
  - destruct n; auto.
Qed.

Lemma get_f_shown : forall f p, shown p -> shown (get_f f p).
Proof.
  induction f as [|f IH]; intros p H; [exact H|]. cbn [get_f]. destruct p; auto; inversion H; subst; auto.
  - pose proof (IH p1 ltac:(assumption)) as A. pose proof (IH p2 ltac:(assumption)) as B.
    destruct (get_f f p1) eqn:E1; auto;
      (destruct (get_f f p2) eqn:E2; auto;
        match goal with |- context [combine ?a ?b] => destruct (combine a b) as [c|] eqn:C; [apply sh_class, (combine_wf _ _ _ A B C)|exact H] end).
  - pose proof (IH p1 ltac:(assumption)) as A. pose proof (IH p2 ltac:(assumption)) as B.
    destruct (get_f f p2) eqn:E2; auto;
      (destruct (get_f f p1) eqn:E1; auto; inv A; apply get_not_shown; auto).
  - pose proof (IH p ltac:(assumption)) as A. destruct (get_f f p); auto.
Qed.
Lemma get_shown : forall p, shown p -> shown (get p).
Proof. intros p. apply get_f_shown. Qed.

Lemma inline_in_shown : forall f, (forall x q, f x = Some q -> shown q) -> forall p, shown p -> shown (inline_in f p).
Proof.
  intros f Hf p. induction p using pattern_ind'; intro S; cbn [inline_in]; auto; try (inv S; auto; fail).
  - inv S. constructor.
    match goal with |- Forall _ (?g defs) => assert (A : forall l, Forall (fun kq => shown (snd kq) -> shown (inline_in f (snd kq))) l ->
      Forall (fun d => shown (snd d)) l -> Forall (fun d => shown (snd d)) (g l)) end; [|apply A; assumption].
    induction l as [|[k q] l IHl]; intros F1 F2; [constructor|]. inv F1. inv F2. constructor; cbn [snd] in *; auto.
  - destruct o as [q|]; inv S; auto. destruct (f x) as [q|] eqn:E; auto. constructor. eapply Hf, E.
Qed.

Definition all_shown (defs : list (string * pattern)) : Prop := Forall (fun d => shown (snd d)) defs.

Lemma assoc_shown : forall defs x q, all_shown defs -> assoc defs x = Some q -> shown q.
Proof.
  induction defs as [|[k v] defs IH]; intros x q F H; cbn in H; [discriminate|]. inv F.
  destruct (String.eqb k x); [injection H as <-; assumption|eauto].
Qed.

Lemma inline_n_shown : forall thr n defs, all_shown defs -> all_shown (inline_n thr n defs).
Proof.
  intros thr n. induction n as [|n IH]; intros defs F; cbn [inline_n]; [exact F|].
  destruct (did_inline thr defs); [|exact F]. apply IH. unfold inline_pass, all_shown. rewrite Forall_map. cbn [snd].
  unfold all_shown in F. rewrite Forall_forall in *. intros kq Hk. apply inline_in_shown; [|apply F; exact Hk].
  intros x q Hx. unfold inline_choice in Hx. destruct (assoc defs x) as [q'|] eqn:E; [|discriminate].
  destruct (_ && _) in Hx; [|discriminate]. injection Hx as <-. eapply assoc_shown; [|exact E].
  apply Forall_forall. exact F.
Qed.

(* ---------- programs ---------- *)

Lemma upd_forall : forall A (P : A -> Prop) l i x, P x -> Forall P l -> Forall P (upd i x l).
Proof.
  intros A P l. induction l as [|y l IH]; intros i x Hx F; [destruct i; constructor|].
  inv F. destruct i; cbn [upd]; constructor; auto.
Qed.

Lemma next_in : forall p i, next_insn p = Some i -> In i p.
Proof.
  induction p as [|j p IH]; intros i H; cbn in H; [discriminate|]. destruct (is_label_or_nop j); [right; auto|].
  injection H as <-. left. reflexivity.
Qed.

Lemma next_known : forall p i, Forall known p -> next_insn p = Some i -> known i.
Proof. intros p i F H. apply next_in in H. rewrite Forall_forall in F. auto. Qed.

Lemma skipn_forall : forall A (P : A -> Prop) n l, Forall P l -> Forall P (skipn n l).
Proof. intros A P n. induction n; intros [|x l] F; cbn; auto. inv F. auto. Qed.
Lemma firstn_forall : forall A (P : A -> Prop) n l, Forall P l -> Forall P (firstn n l).
Proof. intros A P n. induction n; intros [|x l] F; cbn; auto. inv F. auto. Qed.

Ltac fa := repeat first [apply Forall_app; split | apply Forall_cons | apply Forall_nil | exact Logic.I | assumption].

Lemma alt_known : forall l r a b, Forall known l -> Forall known r -> Forall known (alt_code l r a b).
Proof.
  intros l r a b Fl Fr. unfold alt_code. destruct (alt_test l r a) as [t|] eqn:E.
  - assert (K : known t).
    { unfold alt_test in E. destruct (next_insn l) as [i|] eqn:E1; [|discriminate E]. apply next_known in E1; [|exact Fl].
      destruct i; try discriminate E; destruct (next_insn r) as [j|]; try discriminate E; destruct j; try discriminate E;
        match type of E with (if ?c then _ else _) = _ => destruct c; [discriminate E|] end; injection E as <-; exact E1. }
    constructor; [exact K|]. fa. destruct l; [constructor|]. inv Fl. assumption.
  - fa.
Qed.

Lemma cap_known : forall sub id, Forall known sub -> Forall known (cap_code sub id).
Proof.
  intros sub id F. unfold cap_code. destruct (cap_prefix sub) as [i back].
  destruct (_ || _); [fa|]. destruct (_ =? _); fa; [apply firstn_forall|apply skipn_forall]; exact F.
Qed.

Lemma resolve_known : forall lbls n i code r, Forall known code -> resolve_loop n i lbls code = inr r -> Forall known r.
Proof.
  intros lbls n. induction n as [|n IH]; intros i code r F H; cbn [resolve_loop] in H; [injection H as <-; exact F|].
  destruct (nth_error code i) as [j|]; [|eauto]. destruct j; eauto.
  destruct (assoc lbls name) as [l|]; [|discriminate H].
  destruct (next_insn (skipn (S i) code)) as [[]|];
    try (eapply IH; [|exact H]; apply upd_forall; [exact Logic.I|exact F]).
  eapply IH; [|exact H]. apply upd_forall; [exact Logic.I|].
  destruct (next_insn_label (skipn (S i) code)) as [[k|] []]; try exact F. apply upd_forall; [exact Logic.I|exact F].
Qed.

Lemma optimize_known : forall p, Forall known p -> Forall known (optimize p).
Proof.
  intros p F. unfold optimize. generalize (lbl_index p), (seq 0 (List.length p)). intros f l. revert p F.
  induction l as [|i l IH]; intros p F; cbn [fold_left]; [exact F|]. apply IH. unfold opt_step.
  destruct (nth_error p i) as [j|]; [|exact F]. destruct j; auto.
  - destruct (next_insn (skipn (f l0) p)) as [k|] eqn:E; [|exact F]. apply next_known in E; [|apply skipn_forall, F].
    destruct k; try exact F; apply upd_forall; auto.
  - destruct (nth_error p (S i)) as [k|] eqn:E; [|exact F]. apply nth_error_In in E.
    assert (K : known k) by (rewrite Forall_forall in F; apply F, E).
    destruct k; try exact F; apply upd_forall; try exact Logic.I; apply upd_forall; auto.
Qed.

Lemma search_wf : forall sub c, Forall known sub -> search_skip sub = Some c -> cs_wf c.
Proof.
  intros sub c F H. unfold search_skip in H. destruct (next_insn sub) as [i|] eqn:E; [|discriminate H]. apply next_known in E; [|exact F].
  destruct i; try discriminate H; [injection H as <-; auto|]. destruct (cs_size s <? 10); [|discriminate H].
  injection H as <-. cbn in E. auto.
Qed.

Lemma search_shown : forall p o, shown p -> (forall c, o = Some c -> cs_wf c) -> shown (search_grammar p o).
Proof.
  intros p o H Ho. unfold search_grammar. constructor. constructor; [|constructor]. cbn [snd].
  unfold search_body, p_or, p_concat. cbn [rev app fold_left]. apply sh_alt; [apply get_shown, H|].
  apply sh_seq; [apply sh_dot|]. destruct o as [c|]; [|apply sh_name].
  apply sh_seq; [|apply sh_name]. apply sh_star, sh_class, Ho. reflexivity.
Qed.

(* ---------- compiling ---------- *)

Section Compile.
Variable thr : nat.

Lemma cbind_known : forall r k c st, (forall c st, r = COk c st -> Forall known c) ->
  (forall c0 st0, Forall known c0 -> r = COk c0 st0 -> k c0 st0 = COk c st -> Forall known c) -> cbind r k = COk c st -> Forall known c.
Proof. intros r k c st H1 H2 H. destruct r; cbn [cbind] in H; try discriminate H. eauto. Qed.

Lemma compile_known : forall f p st c st', shown p -> compile_f thr f p st = COk c st' -> Forall known c.
Proof.
  induction f as [|f IH]; intros p st c st' S H; [discriminate H|].
  assert (G : forall q st c st', shown q -> compile_f thr f (get q) st = COk c st' -> Forall known c)
    by (intros q s0 c0 s1 Hq; apply IH, get_shown, Hq).
  destruct p; cbn [compile_f] in H; inversion S; subst.
  - destruct (combine (get p1) (get p2)) as [s|] eqn:E.
    + injection H as <- <-. constructor; [|constructor]. cbn. eapply combine_wf; [| |exact E]; apply get_shown; assumption.
    + eapply cbind_known; [|intros c0 st0 F0 _ K0|exact H]; [intros ? ? X; refine (G _ _ _ _ _ X); assumption|].
      eapply cbind_known; [|intros c1 st1 F1 _ K1|exact K0]; [intros ? ? X; refine (G _ _ _ _ _ X); assumption|]. injection K1 as <- <-. apply alt_known; assumption.
  - eapply cbind_known; [|intros c0 st0 F0 _ K0|exact H]; [intros ? ? X; refine (G _ _ _ _ _ X); assumption|].
    eapply cbind_known; [|intros c1 st1 F1 _ K1|exact K0]; [intros ? ? X; refine (G _ _ _ _ _ X); assumption|]. injection K1 as <- <-. fa.
  - pose proof (get_shown p ltac:(assumption)) as A.
    destruct (get p) as [] eqn:E;
      try (eapply cbind_known; [|intros c0 st0 F0 _ K0|exact H]; [intros; eapply IH; [exact A|eassumption]|]; injection K0 as <- <-; fa; fail).
    + inv A. eapply cbind_known; [|intros c0 st0 F0 _ K0|exact H]; [intros ? ? X; refine (G _ _ _ _ _ X); assumption|]. injection K0 as <- <-. fa.
    + inv A. injection H as <- <-. apply Forall_cons; [assumption|fa].
  - eapply cbind_known; [|intros c0 st0 F0 _ K0|exact H]; [intros; eapply IH; [|eassumption]; constructor; apply get_shown; assumption|].
    eapply cbind_known; [|intros c1 st1 F1 _ K1|exact K0]; [intros ? ? X; refine (G _ _ _ _ _ X); assumption|]. injection K1 as <- <-. fa.
  - pose proof (get_shown p ltac:(assumption)) as A.
    destruct (get p) as [] eqn:E; try (eapply IH; [|exact H]; constructor; [exact A|constructor]).
    + inv A. injection H as <- <-. apply Forall_cons; [assumption|fa].
    + destruct str as [|b [|b' l]]; try (eapply IH; [|exact H]; constructor; [exact A|constructor]). injection H as <- <-. fa.
  - eapply cbind_known; [|intros c0 st0 F0 _ K0|exact H]; [intros ? ? X; refine (G _ _ _ _ _ X); assumption|]. injection K0 as <- <-. fa.
  - eapply cbind_known; [|intros c0 st0 F0 _ K0|exact H]; [intros ? ? X; refine (G _ _ _ _ _ X); assumption|]. injection K0 as <- <-. fa.
  - eapply cbind_known; [|intros c0 st0 F0 _ K0|exact H]; [intros ? ? X; refine (G _ _ _ _ _ X); assumption|]. injection K0 as <- <-. apply cap_known; assumption.
  - eapply cbind_known; [|intros c0 st0 F0 _ K0|exact H]; [intros ? ? X; refine (G _ _ _ _ _ X); assumption|]. injection K0 as <- <-. fa.
  - assert (D : all_shown (inline_all thr defs)) by (apply inline_n_shown; assumption).
    destruct (used_names (inline_all thr defs)) as [|u us] eqn:U.
    + destruct (assoc (inline_all thr defs) start) as [q|] eqn:A; [|discriminate H]. eapply IH; [|exact H]. eapply assoc_shown; eassumption.
    + cbn [new_label] in H. generalize dependent st. generalize (u :: us). clear U. intros us' st H.
      match type of H with context [?g (inline_all thr defs) ?s0 ?c0 ?l0] => 
        assert (L : forall ds st code lbls c st' l', all_shown ds -> Forall known code -> g ds st code lbls = (COk c st', l') -> Forall known c) end.
      { induction ds as [|[k v] ds IHd]; intros s0 code lbls c0 s1 l' Fd Fc Hd; [injection Hd as <- <- <-; exact Fc|].
        inv Fd. cbn [snd] in *. destruct (_ && _) in Hd; [eapply IHd; eassumption|]. cbn [new_label] in Hd.
        match type of Hd with match ?r with _ => _ end = _ => destruct r as [fn s2| | |] eqn:Er; try discriminate Hd end.
        eapply IHd; [eassumption| |exact Hd]. assert (Ff : Forall known fn) by (eapply IH; eassumption). fa. }
      match type of H with match ?e with _ => _ end = _ => destruct e as [[code s2| | |] lbls] eqn:Er; try discriminate H end.
      apply L in Er; [|exact D|fa]. unfold resolve in H.
      destruct (resolve_loop _ _ lbls code) as [x|r] eqn:R; [discriminate H|]. apply resolve_known in R; [|exact Er].
      injection H as <- <-. fa.
  - eapply cbind_known; [|intros c0 st0 F0 _ K0|exact H]; [intros ? ? X; refine (G _ _ _ _ _ X); assumption|]. eapply IH; [|exact K0].
    apply search_shown; [assumption|]. intros c1. apply search_wf; assumption.
  - injection H as <- <-. apply Forall_cons; [assumption|fa].
  - injection H as <- <-. clear. induction str; constructor; [exact Logic.I|assumption].
  - injection H as <- <-. fa.
  - refine (IH _ _ _ _ _ H). assumption.
  - injection H as <- <-. fa.
  - injection H as <- <-. fa.
  - eapply cbind_known; [|intros c0 st0 F0 _ K0|exact H]; [intros ? ? X; refine (G _ _ _ _ _ X); assumption|]. injection K0 as <- <-. fa.
  - injection H as <- <-. apply Forall_cons; [assumption|fa].
  - injection H as <- <-. fa.
Qed.
End Compile.

Lemma p_compiled : forall thr f p st c st', shown p -> compile thr f p st = COk c st' -> (exists k, encode c = Some k) -> Forall listed c.
Proof.
  intros thr f p st c st' S H E. unfold compile in H. destruct (compile_f thr f p st) as [c0 s0| | |] eqn:C; try discriminate H. injection H as <- <-.
  apply compile_known in C; [|exact S]. apply optimize_known in C. apply encode_iff in E. destruct E as (E & _).
  rewrite Forall_forall in *. intros i Hi. specialize (C i Hi). destruct i; try exact C. destruct (E _ Hi).
Qed.
