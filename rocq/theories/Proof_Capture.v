(** Iteration over captures, and the extents of captures. *)
From Verif Require Import Base Model_Charset Model_Isa Model_Capture Model_Code Model_VM Model_Pattern Spec_Peg Spec_Scope Spec_Run Spec_Props Proof_Eval Proof_Inline.
Local Open Scope nat_scope.

(* ---------- iteration ---------- *)
Lemma capture_ind' : forall (P : capture -> Prop), (forall d id st ln cs, Forall P cs -> P (Capture d id st ln cs)) -> forall c, P c.
Proof.
  intros P H. fix IH 1. intros [d id st ln cs]. apply H. revert cs. fix IHl 1. intros [|c cs]; constructor; [apply IH|apply IHl].
Qed.
Lemma proper_eq : forall d id st ln cs, proper_children (Capture d id st ln cs) = flat_map (fun ch => if cap_dummy ch then proper_children ch else [ch]) cs.
Proof. intros. cbn [proper_children]. induction cs as [|c cs IH]; [reflexivity|]. cbn [flat_map]. rewrite <- IH. reflexivity. Qed.
Definition yields (ch : capture) : list capture := if cap_dummy ch then proper_children ch else [ch].
Lemma proper_yields : forall c, proper_children c = flat_map yields (cap_children c).
Proof. intros [d id st ln cs]. rewrite proper_eq. reflexivity. Qed.
Fixpoint csize (c : capture) : nat :=
  match c with Capture _ _ _ _ cs => 2 + (fix go (cs : list capture) : nat := match cs with [] => 0 | c :: cs => csize c + go cs end) cs end.
Definition lsize (cs : list capture) : nat := list_sum (map csize cs).
Lemma csize_eq : forall c, csize c = 2 + lsize (cap_children c).
Proof.
  intros [d id st ln cs]. cbn [csize cap_children]. f_equal. induction cs as [|c cs IH]; [reflexivity|]. unfold lsize in *. cbn [map]. change (list_sum (csize c :: map csize cs)) with (csize c + list_sum (map csize cs)). rewrite <- IH. reflexivity.
Qed.
Fixpoint isz (it : iter) : nat :=
  match it with
  | Iter [] _ => 1
  | Iter (_ :: rest) (Some s) => 1 + lsize rest + isz s
  | Iter (ch :: rest) None => 1 + csize ch + lsize rest
  end.
Fixpoint ilist (it : iter) : list capture :=
  match it with
  | Iter [] _ => []
  | Iter (_ :: rest) (Some s) => ilist s ++ flat_map yields rest
  | Iter (ch :: rest) None => yields ch ++ flat_map yields rest
  end.
Lemma isz_none : forall rest, isz (Iter rest None) = 1 + lsize rest.
Proof. intros [|c rest]; [reflexivity|]. cbn [isz]. unfold lsize. cbn [map]. change (list_sum (csize c :: map csize rest)) with (csize c + list_sum (map csize rest)). lia. Qed.
Lemma ilist_none : forall rest, ilist (Iter rest None) = flat_map yields rest. Proof. intros [|c rest]; reflexivity. Qed.
Lemma isz_pos : forall it, 0 < isz it. Proof. destruct it as [[|] [|]]; cbn [isz]; lia. Qed.
Lemma ilist_child : forall c, ilist (child_iterator c) = proper_children c.
Proof. intro c. unfold child_iterator. rewrite ilist_none, proper_yields. reflexivity. Qed.
Lemma next_ok : forall fuel it, isz it <= fuel ->
  match ilist it with
  | [] => exists it', iter_next fuel it = Some (None, it')
  | c :: l => exists it', iter_next fuel it = Some (Some c, it') /\ ilist it' = l /\ isz it' < isz it
  end.
Proof.
  induction fuel as [|fuel IH]; intros it H; [pose proof (isz_pos it); lia|].
  destruct it as [[|ch rest] sub]; cbn [iter_next]; [cbn [ilist]; eauto|].
  (* the sub-iterator, old or new *)
  assert (Sub : forall s, isz s <= fuel -> 1 + lsize rest <= fuel ->
    match ilist s ++ flat_map yields rest with
    | [] => exists it', match iter_next fuel s with None => None | Some (Some c, s') => Some (Some c, Iter (ch :: rest) (Some s')) | Some (None, _) => iter_next fuel (Iter rest None) end = Some (None, it')
    | c :: l => exists it', match iter_next fuel s with None => None | Some (Some c, s') => Some (Some c, Iter (ch :: rest) (Some s')) | Some (None, _) => iter_next fuel (Iter rest None) end = Some (Some c, it') /\ ilist it' = l /\ isz it' < 1 + lsize rest + isz s
    end).
  { intros s Hs Hr. pose proof (IH s Hs) as N. destruct (ilist s) as [|c l]; cbn [app].
    - destruct N as (it' & ->). pose proof (IH (Iter rest None)) as N. rewrite isz_none, ilist_none in N. specialize (N Hr).
      pose proof (isz_pos s). destruct (flat_map yields rest) as [|c l]; [exact N|]. destruct N as (it2 & N1 & N2 & N3). exists it2. split; [exact N1|]. split; [exact N2|]. lia.
    - destruct N as (it' & -> & N1 & N2). eexists. split; [reflexivity|]. cbn [ilist isz]. split; [rewrite N1; reflexivity|lia]. }
  destruct sub as [s|].
  - cbn [ilist isz] in *. pose proof (isz_pos s). apply Sub; lia.
  - cbn [ilist isz] in *. unfold yields at 1. destruct (cap_dummy ch) eqn:Ed.
    + assert (Hz : S (S (isz (child_iterator ch))) = S (csize ch)) by (unfold child_iterator; rewrite isz_none, csize_eq; lia).
      pose proof (isz_pos (child_iterator ch)). pose proof (Sub (child_iterator ch)) as N. rewrite ilist_child in N. specialize (N ltac:(lia) ltac:(lia)).
      destruct (proper_children ch ++ flat_map yields rest) as [|c l]; [exact N|]. destruct N as (it2 & N1 & N2 & N3). exists it2. split; [exact N1|]. split; [exact N2|lia].
    + cbn [app]. exists (Iter rest None). split; [reflexivity|]. rewrite ilist_none, isz_none. split; [reflexivity|]. rewrite csize_eq. lia.
Qed.
Lemma drain_ok : forall fuel it, isz it < fuel -> iter_drain fuel it = Some (ilist it).
Proof.
  induction fuel as [|fuel IH]; intros it H; [lia|]. cbn [iter_drain]. pose proof (next_ok (S fuel) it ltac:(lia)) as N.
  destruct (ilist it) as [|c l]; [destruct N as (it' & ->); reflexivity|]. destruct N as (it' & -> & N1 & N2). rewrite IH by lia. rewrite N1. reflexivity.
Qed.
Lemma child_loop_ok : forall fuel it i n, isz it < fuel -> i <= n -> child_loop fuel it i n = Some (nth_error (ilist it) (n - i)).
Proof.
  induction fuel as [|fuel IH]; intros it i n H Hi; [lia|]. cbn [child_loop]. pose proof (next_ok (S fuel) it ltac:(lia)) as N.
  destruct (ilist it) as [|c l]; [destruct N as (it' & ->); destruct (n - i); reflexivity|]. destruct N as (it' & -> & N1 & N2).
  destruct (Nat.eqb_spec i n) as [->|Hn]; [rewrite Nat.sub_diag; reflexivity|]. rewrite IH by lia. rewrite N1. replace (n - i) with (S (n - S i)) by lia. reflexivity.
Qed.
Lemma drain_spec : forall c, exists F, forall fuel, F <= fuel -> iter_drain fuel (child_iterator c) = Some (proper_children c).
Proof. intro c. exists (S (isz (child_iterator c))). intros fuel H. rewrite drain_ok by lia. rewrite ilist_child. reflexivity. Qed.
Lemma child_spec : forall c n, exists F, forall fuel, F <= fuel -> cap_child fuel c n = Some (nth_error (proper_children c) n).
Proof. intros c n. exists (S (isz (child_iterator c))). intros fuel H. unfold cap_child. rewrite child_loop_ok by lia. rewrite ilist_child, Nat.sub_0_r. reflexivity. Qed.
Lemma num_spec : forall c, num_children c = List.length (proper_children c).
Proof.
  induction c as [d id st ln cs IH] using capture_ind'. rewrite proper_eq. cbn [num_children]. induction IH as [|c cs Hc Hcs IHl]; [reflexivity|].
  cbn [flat_map]. rewrite app_length, <- IHl. f_equal. destruct (cap_dummy c); [exact Hc|reflexivity].
Qed.
Lemma flat1_eq : forall d id st ln cs, flat1 (Capture d id st ln cs) = if d then flat cs else [CNode id st ln (flat cs)].
Proof. intros. cbn [flat1]. replace ((fix go (cs : list capture) : list ctree := match cs with [] => [] | c :: cs => flat1 c ++ go cs end) cs) with (flat cs); [reflexivity|]. induction cs as [|c cs IH]; [reflexivity|]. cbn [flat]. rewrite IH. reflexivity. Qed.
Lemma flat_app' : forall a b, flat (a ++ b) = flat a ++ flat b.
Proof. induction a as [|x a IH]; intro b; [reflexivity|]. cbn [app flat]. rewrite IH, app_assoc. reflexivity. Qed.
Lemma proper_flat : forall c, flat (cap_children c) = flat (proper_children c) /\ Forall (fun ch => cap_dummy ch = false) (proper_children c).
Proof.
  induction c as [d id st ln cs IH] using capture_ind'. rewrite proper_eq. cbn [cap_children]. induction IH as [|c cs Hc Hcs IHl]; [split; [reflexivity|constructor]|].
  cbn [flat_map flat]. destruct IHl as [I1 I2]. rewrite flat_app', <- I1. destruct c as [d' id' st' ln' cs']. cbn [cap_dummy cap_children] in *. destruct d'.
  - destruct Hc as [H1 H2]. rewrite flat1_eq, H1. split; [reflexivity|]. apply Forall_app. split; assumption.
  - rewrite flat1_eq. split; [cbn [flat]; rewrite flat1_eq; reflexivity|]. constructor; [reflexivity|assumption].
Qed.

(* ---------- extents ---------- *)
Lemma nested_eq : forall lo hi id st ln kids, nested lo hi (CNode id st ln kids) <-> lo <= st /\ st + ln <= hi /\ in_order st (st + ln) kids.
Proof.
  intros. cbn [nested].
  assert (H : forall l x, (fix go (lo : nat) (ts : list ctree) : Prop := match ts with [] => True | (CNode _ st' ln' _ as t) :: ts => nested lo (st + ln) t /\ go (st' + ln') ts end) x l <-> in_order x (st + ln) l).
  { induction l as [|[id' st' ln' k'] l IH]; intro x; [reflexivity|]. cbn [in_order]. rewrite <- IH. reflexivity. }
  rewrite H. reflexivity.
Qed.
Lemma nested_up : forall t lo hi lo' hi', lo' <= lo -> hi <= hi' -> nested lo hi t -> nested lo' hi' t.
Proof. intros [id st ln kids] lo hi lo' hi' H1 H2. rewrite !nested_eq. intros (A & B & C). split; [lia|]. split; [lia|exact C]. Qed.
Lemma in_order_up : forall ts lo hi lo' hi', lo' <= lo -> hi <= hi' -> in_order lo hi ts -> in_order lo' hi' ts.
Proof.
  induction ts as [|t ts IH]; intros lo hi lo' hi' H1 H2 H; [exact I|]. destruct t as [id st ln kids]. cbn [in_order] in *. destruct H as [A B]. split; [eapply nested_up; eassumption|]. eapply IH; [|exact H2|exact B]. lia.
Qed.
Lemma in_order_app : forall ts us lo m hi, lo <= m -> m <= hi -> in_order lo m ts -> in_order m hi us -> in_order lo hi (ts ++ us).
Proof.
  induction ts as [|t ts IH]; intros us lo m hi H1 H2 H3 H4; [eapply in_order_up; [exact H1| |exact H4]; lia|]. destruct t as [id st ln kids]. cbn [app in_order] in *. destruct H3 as [A B].
  split; [eapply nested_up; [| |exact A]; lia|]. apply nested_eq in A. apply IH with m; try assumption. lia.
Qed.
Lemma no_and_gram : forall defs st, no_and (PGrammar defs st) <-> Forall (fun kq => no_and (snd kq)) defs.
Proof. intros defs st. cbn [no_and]. induction defs as [|[k q] defs IH]; [split; constructor|]. rewrite IH. split; [intros [A B]; constructor; assumption|intro H; inversion H; subst; auto]. Qed.
Definition env_no_and (E : env) : Prop := Forall (fun F => Forall (fun kq : string * pattern => no_and (snd kq)) F) E.
Lemma lookup_no_and : forall E x b E', env_no_and E -> lookup E x = Some (b, E') -> no_and b /\ env_no_and E'.
Proof.
  intros E x b E' H. induction H as [|F E HF HE IH]; intro L; [discriminate|]. cbn [lookup] in L. destruct (assoc F x) as [b'|] eqn:Eb; [|apply IH; exact L].
  injection L as <- <-. split; [|constructor; assumption]. apply assoc_in in Eb. rewrite Forall_forall in HF. apply (HF _ Eb).
Qed.
Definition orderly (i : nat) (r : pres) : Prop := match r with RSucc j ts => i <= j /\ in_order i j ts | _ => True end.
Lemma peg_orderly : forall s CS check E p i w r w', peg s (CS:=CS) check E p i w r w' -> no_and p -> env_no_and E -> orderly i r.
Proof.
  intros s CS check E p i w r w' H. induction H; intros Hp HE; cbn [no_and] in Hp; cbn [orderly in_order];
    try exact I; try (split; [lia|exact I]); try contradiction.
  - destruct (IHpeg1 (proj1 Hp) HE) as [A B], (IHpeg2 (proj2 Hp) HE) as [C D]. split; [lia|]. eapply in_order_app; [| |exact B|exact D]; lia.
  - exact (IHpeg (proj1 Hp) HE).
  - destruct r; try exact I. destruct (H1 j0 ts0 eq_refl).
  - exact (IHpeg (proj1 Hp) HE).
  - exact (IHpeg2 (proj2 Hp) HE).
  - destruct (IHpeg1 Hp HE) as [A B], (IHpeg2 Hp HE) as [C D]. split; [lia|]. eapply in_order_app; [| |exact B|exact D]; lia.
  - exact (IHpeg (conj Hp Hp) HE).
  - exact (IHpeg (conj Hp I) HE).
  - destruct (IHpeg Hp HE) as [A B]. split; [lia|]. split; [|exact I]. apply nested_eq. split; [lia|]. split; [lia|]. replace (i + (j - i)) with j by lia. exact B.
  - destruct r; try exact I. destruct (H0 j ts eq_refl).
  - exact (IHpeg Hp HE).
  - destruct (IHpeg Hp HE) as [A B]. split; [lia|]. eapply in_order_up; [| |exact B]; lia.
  - destruct r; try exact I. destruct (H0 j ts eq_refl).
  - exact (IHpeg Hp HE).
  - exact (IHpeg Hp HE).
  - pose proof (IHpeg2 Hp HE) as G. destruct r; try exact I. destruct G as [A B]. split; [lia|]. eapply in_order_up; [| |exact B]; lia.
  - change (no_and (PGrammar defs start)) in Hp. rewrite no_and_gram in Hp. apply IHpeg; [|constructor; assumption].
    apply assoc_in in H. rewrite Forall_forall in Hp. apply (Hp _ H).
  - destruct (lookup_no_and _ _ _ _ HE H) as [A B]. exact (IHpeg A B).
  - exact (IHpeg Hp HE).
Qed.
Lemma bounded_eq : forall hi id st ln kids, bounded hi (CNode id st ln kids) <-> st + ln <= hi /\ Forall (bounded hi) kids.
Proof.
  intros. cbn [bounded]. assert (H : forall l, (fix go (ts : list ctree) : Prop := match ts with [] => True | t :: ts => bounded hi t /\ go ts end) l <-> Forall (bounded hi) l).
  { induction l as [|t l IH]; [split; constructor|]. rewrite IH. split; [intros [A B]; constructor; assumption|intro H; inversion H; auto]. }
  rewrite H. reflexivity.
Qed.
Definition inside (s : list byte) (r : pres) : Prop := match r with RSucc j ts => j <= List.length s /\ Forall (bounded (List.length s)) ts | RAbort j => j <= List.length s | RFail => True end.
Lemma peg_inside : forall s CS check E p i w r w', check_ok check s -> peg s (CS:=CS) check E p i w r w' -> i <= List.length s -> inside s r.
Proof.
  intros s CS check E p i w r w' Hck H. induction H; intro Hi; cbn [inside];
    try exact I; try (split; [|constructor]; solve [lia]); try solve [lia].
  - split; [|constructor]. assert (H2 : List.length (firstn (List.length str) (skipn i s)) = List.length str) by (rewrite H; reflexivity). rewrite firstn_length, skipn_length in H2. lia.
  - split; [|constructor]. assert (i < List.length s) by (apply nth_error_Some; congruence). lia.
  - destruct (IHpeg1 Hi) as [A B]. destruct (IHpeg2 A) as [C D]. split; [exact C|]. apply Forall_app. auto.
  - exact (IHpeg Hi).
  - destruct (IHpeg1 Hi) as [A B]. exact (IHpeg2 A).
  - exact (IHpeg Hi).
  - exact (IHpeg2 Hi).
  - destruct (IHpeg1 Hi) as [A B]. destruct (IHpeg2 A) as [C D]. split; [exact C|]. apply Forall_app. auto.
  - exact (IHpeg Hi).
  - destruct (IHpeg1 Hi) as [A B]. exact (IHpeg2 A).
  - exact (IHpeg Hi).
  - exact (IHpeg Hi).
  - exact (IHpeg Hi).
  - destruct (IHpeg Hi) as [A B]. split; assumption.
  - exact (IHpeg Hi).
  - destruct (IHpeg Hi) as [A B]. split; [exact A|]. constructor; [|constructor]. apply bounded_eq. split; [|exact B].
    lia.
  - exact (IHpeg Hi).
  - exact (IHpeg Hi).
  - destruct (IHpeg Hi) as [A B]. split; [|exact B]. eapply Hck; eassumption.
  - exact (IHpeg Hi).
  - exact (IHpeg Hi).
  - exact (IHpeg Hi).
  - apply IHpeg2. lia.
  - exact (IHpeg Hi).
  - exact (IHpeg Hi).
  - exact (IHpeg Hi).
Qed.
