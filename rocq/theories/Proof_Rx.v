(** The conversion of regular expressions: what the patterns match, on bytes. *)
From Coq Require Import ZArith Ascii String DecimalString DecimalNat.
From Verif Require Import Base Model_Charset Model_Isa Model_Capture Model_VM Model_Pattern Model_Rxconv Spec_Peg Spec_Rx Spec_Props Proof_Charset Proof_Spec.
Local Open Scope nat_scope.

(* ---------- induction ---------- *)
Section RxInd.
Variable P : rx -> Prop.
Hypothesis H1 : P RxEmpty.
Hypothesis H2 : forall f rs, P (RxLit f rs).
Hypothesis H3 : forall rs, P (RxClass rs).
Hypothesis H4 : P RxAny.
Hypothesis H5 : P RxAnyNotNL.
Hypothesis H6 : forall es, Forall P es -> P (RxConcat es).
Hypothesis H7 : forall es, Forall P es -> P (RxAlt es).
Hypothesis H8 : forall e, P e -> P (RxCapture e).
Hypothesis H9 : forall g e, P e -> P (RxStar g e).
Hypothesis H10 : forall g e, P e -> P (RxPlus g e).
Hypothesis H11 : forall g e, P e -> P (RxQuest g e).
Hypothesis H12 : forall a, P (RxAssert a).
Hypothesis H13 : P RxOther.
Fixpoint rx_ind' (e : rx) : P e :=
  match e with
  | RxEmpty => H1
  | RxLit f rs => H2 f rs
  | RxClass rs => H3 rs
  | RxAny => H4
  | RxAnyNotNL => H5
  | RxConcat es => H6 es ((fix go es : Forall P es := match es with [] => Forall_nil _ | e :: es => Forall_cons _ (rx_ind' e) (go es) end) es)
  | RxAlt es => H7 es ((fix go es : Forall P es := match es with [] => Forall_nil _ | e :: es => Forall_cons _ (rx_ind' e) (go es) end) es)
  | RxCapture e => H8 e (rx_ind' e)
  | RxStar g e => H9 g e (rx_ind' e)
  | RxPlus g e => H10 g e (rx_ind' e)
  | RxQuest g e => H11 g e (rx_ind' e)
  | RxAssert a => H12 a
  | RxOther => H13
  end.
End RxInd.
Lemma all_parts_here : forall P e, all_parts P e -> P e.
Proof. intros P e H. destruct e; apply H. Qed.
Lemma all_parts_list : forall P es,
  (fix go (es : list rx) : Prop := match es with [] => True | e :: es => all_parts P e /\ go es end) es -> Forall (all_parts P) es.
Proof. intros P es H. induction es as [|e es IH]; constructor; [apply H|apply IH; apply H]. Qed.

(* ---------- names ---------- *)
Lemma uniq_inj : forall m n, uniq m = uniq n -> m = n.
Proof.
  intros m n H. unfold uniq in H. injection H as H. apply (f_equal NilEmpty.uint_of_string) in H. rewrite !NilEmpty.usu in H. injection H as H.
  apply (f_equal Nat.of_uint) in H. rewrite !Unsigned.of_to in H. exact H.
Qed.

(* ---------- the first success ---------- *)
Fixpoint pick (K : nat -> option nat) (L : list nat) : option nat :=
  match L with [] => None | j :: L => match K j with Some m => Some m | None => pick K L end end.
Lemma pick_app : forall K a b, pick K (a ++ b) = match pick K a with Some m => Some m | None => pick K b end.
Proof. intros K a b. induction a as [|j a IH]; [reflexivity|]. cbn. destruct (K j); [reflexivity|exact IH]. Qed.
Lemma pick_flat : forall K f L, pick K (flat_map f L) = pick (fun j => pick K (f j)) L.
Proof. intros K f L. induction L as [|j L IH]; [reflexivity|]. cbn [flat_map]. rewrite pick_app, IH. reflexivity. Qed.
Lemma pick_ext : forall K K' L, (forall j, In j L -> K j = K' j) -> pick K L = pick K' L.
Proof. intros K K' L H. induction L as [|j L IH]; [reflexivity|]. cbn. rewrite (H j) by (left; reflexivity). rewrite IH; [reflexivity|]. intros. apply H. right. assumption. Qed.

(* ---------- matchers in general ---------- *)
Record base := Base { b_len : nat; b_lit : list N -> nat -> list nat; b_cls : list (N * N) -> nat -> list nat;
  b_any : nat -> list nat; b_nnl : nat -> list nat; b_asr : assert_op -> nat -> bool }.
Definition bstar (B : base) (f : nat -> list nat) (i : nat) : list nat := star_ends (S (b_len B - i)) true f i.
Section Gends.
Variable B : base.
Fixpoint gends (e : rx) (i : nat) {struct e} : list nat :=
  match e with
  | RxEmpty => [i]
  | RxLit _ rs => b_lit B rs i
  | RxClass ranges => b_cls B ranges i
  | RxAny => b_any B i
  | RxAnyNotNL => b_nnl B i
  | RxConcat es => (fix go (es : list rx) (i : nat) : list nat := match es with [] => [i] | e :: es => flat_map (go es) (gends e i) end) es i
  | RxAlt es => (fix go (es : list rx) : list nat := match es with [] => [] | e :: es => gends e i ++ go es end) es
  | RxCapture e => gends e i
  | RxStar _ e => bstar B (gends e) i
  | RxPlus _ e => flat_map (bstar B (gends e)) (gends e i)
  | RxQuest _ e => gends e i ++ [i]
  | RxAssert a => if b_asr B a i then [i] else []
  | RxOther => []
  end.
Fixpoint gseq (es : list rx) (i : nat) : list nat := match es with [] => [i] | e :: es => flat_map (gseq es) (gends e i) end.
Lemma gends_concat : forall es i, gends (RxConcat es) i = gseq es i.
Proof. reflexivity. Qed.
Lemma gends_alt : forall es i, gends (RxAlt es) i = flat_map (fun e => gends e i) es.
Proof. intros es i. cbn [gends]. induction es as [|e es IH]; [reflexivity|]. cbn [flat_map]. rewrite <- IH. reflexivity. Qed.

(** what is matched lies ahead *)
Definition ahead (strict : bool) (f : nat -> list nat) : Prop := forall i j, i <= b_len B -> In j (f i) -> (if strict then i < j else i <= j) /\ j <= b_len B.
Hypothesis A_lit : forall rs, ahead (match rs with [] => false | _ => true end) (b_lit B rs).
Hypothesis A_cls : forall rs, ahead true (b_cls B rs).
Hypothesis A_any : ahead true (b_any B).
Hypothesis A_nnl : ahead true (b_nnl B).
Lemma ahead_weak : forall x f, ahead x f -> ahead false f.
Proof. intros [|] f H i j Hi Hj; [destruct (H i j Hi Hj); lia|apply H; assumption]. Qed.
Lemma star_more : forall f, ahead true f -> forall m i j, i <= b_len B -> In j (star_ends m true f i) -> i <= j <= b_len B.
Proof.
  intros f Hf. induction m as [|m IH]; intros i j Hi Hj; [destruct Hj|]. cbn [star_ends] in Hj. apply in_app_or in Hj. destruct Hj as [Hj|[<-|[]]]; [|lia].
  apply in_flat_map in Hj. destruct Hj as (x & Hx & Hj). apply filter_In in Hx. destruct Hx as [Hx _]. destruct (Hf i x Hi Hx) as [H1 H2]. specialize (IH x j H2 Hj). lia.
Qed.
Lemma star_fuel : forall f, ahead true f -> forall m m' i, i <= b_len B -> b_len B - i < m -> b_len B - i < m' -> star_ends m true f i = star_ends m' true f i.
Proof.
  intros f Hf. induction m as [|m IH]; intros m' i Hi L L'; [lia|]. destruct m' as [|m']; [lia|]. cbn [star_ends]. f_equal.
  assert (Q : forall l, (forall j, In j l -> i < j <= b_len B) -> flat_map (star_ends m true f) l = flat_map (star_ends m' true f) l).
  { induction l as [|j l IHl]; intro H; [reflexivity|]. cbn [flat_map]. pose proof (H j (or_introl eq_refl)). rewrite (IH m') by lia. rewrite IHl; [reflexivity|]. intros. apply H. right. assumption. }
  apply Q. intros j Hj. apply filter_In in Hj. apply Hf; tauto.
Qed.
Lemma star_unroll : forall f i, ahead true f -> i <= b_len B -> bstar B f i = flat_map (bstar B f) (f i) ++ [i].
Proof.
  intros f i Hf Hi. unfold bstar at 1. cbn [star_ends]. f_equal.
  assert (Q : forall l, (forall j, In j l -> i < j <= b_len B) -> flat_map (star_ends (b_len B - i) true f) (filter (fun j => i <? j) l) = flat_map (bstar B f) l).
  { induction l as [|j l IHl]; intro H; [reflexivity|]. pose proof (H j (or_introl eq_refl)). cbn [filter]. rewrite (proj2 (Nat.ltb_lt i j)) by lia. cbn [flat_map].
    rewrite IHl by (intros; apply H; right; assumption). f_equal. unfold bstar. apply star_fuel; [exact Hf|lia|lia|lia]. }
  apply Q. intros j Hj. destruct (Hf i j Hi Hj). lia.
Qed.
Lemma gends_ahead : forall e, fits e -> ahead (negb (nullable e)) (gends e).
Proof.
  induction e using rx_ind'; intro F.
  - intros i j Hi [<-|[]]. cbn. lia.
  - intros i j Hi Hj. pose proof (A_lit rs i j Hi Hj). cbn. destruct rs; exact H.
  - exact (A_cls rs).
  - exact A_any.
  - exact A_nnl.
  - destruct F as [_ F]. apply all_parts_list in F. change (ahead (negb (nullable (RxConcat es))) (gseq es)).
    induction es as [|e es IH]; [intros i j Hi [<-|[]]; cbn; lia|]. inversion H as [|? ? He Hes]; subst. inversion F as [|? ? Fe Fes]; subst. specialize (IH Hes Fes). specialize (He Fe).
    intros i j Hi Hj. cbn [gseq] in Hj. apply in_flat_map in Hj. destruct Hj as (x & Hx & Hj). destruct (He i x Hi Hx) as [X1 X2]. destruct (IH x j X2 Hj) as [Y1 Y2]. split; [|exact Y2].
    cbn [nullable] in *. destruct (nullable e); cbn [negb andb] in *.
    + destruct (negb _); lia.
    + destruct (negb ((fix go (es : list rx) := _) es)) in Y1; lia.
  - destruct F as [_ F]. apply all_parts_list in F. intros i j Hi Hj. rewrite gends_alt in Hj. apply in_flat_map in Hj. destruct Hj as (e & He & Hj).
    rewrite Forall_forall in H, F. destruct (H e He (F e He) i j Hi Hj) as [X1 X2]. split; [|exact X2]. clear - X1 He.
    induction es as [|e' es IH]; [destruct He|]. cbn [nullable] in *. destruct He as [->|He].
    + destruct (nullable e); cbn [negb orb] in *; [exact X1|]. destruct (negb _); lia.
    + specialize (IH He). destruct (nullable e'); cbn [negb orb] in *; [|exact IH]. destruct (negb _) in IH; lia.
  - apply IHe. apply F.
  - destruct F as [[_ F1] F2]. specialize (IHe F2). rewrite F1 in IHe. intros i j Hi Hj. cbn. eapply star_more; eassumption.
  - destruct F as [[_ F1] F2]. specialize (IHe F2). rewrite F1 in IHe. intros i j Hi Hj. cbn [nullable]. rewrite F1. cbn [gends] in Hj. apply in_flat_map in Hj. destruct Hj as (x & Hx & Hj).
    destruct (IHe i x Hi Hx) as [X1 X2]. pose proof (star_more _ IHe _ x j X2 Hj). cbn in *. lia.
  - destruct F as [_ F]. intros i j Hi Hj. cbn [gends] in Hj. cbn. apply in_app_or in Hj. destruct Hj as [Hj|[<-|[]]]; [|lia]. apply (ahead_weak _ _ (IHe F) i j Hi Hj).
  - intros i j Hi Hj. cbn in Hj |- *. destruct (b_asr B a i); [destruct Hj as [<-|[]]; lia|destruct Hj].
  - intros i j Hi Hj. destruct Hj.
Qed.
End Gends.

(* ---------- patterns ---------- *)
Section Peg.
Variable s : list byte.
Variable CS : Type.
Variable check : nat -> CS -> list byte -> list byte -> nat -> Z -> Z -> CS * option nat.
Notation peg := (peg s check).
Definition beqb (a b : list byte) : bool := if list_eq_dec Byte.byte_eq_dec a b then true else false.
Definition blit (u : list byte) (i : nat) : list nat := if beqb (firstn (List.length u) (skipn i s)) u then [i + List.length u] else [].
Definition bone (f : byte -> bool) (i : nat) : list nat := match nth_error s i with Some b => if f b then [S i] else [] | None => [] end.
Definition bcls_lists (ranges : list (N * N)) (i : nat) : list (list nat) :=
  flat_map (fun '(lo, hi) =>
    if ((lo <? 256) && (hi <? 256))%N then [bone (cs_has (cs_range (N2b lo) (N2b hi))) i] else map (fun r => blit (utf8 r) i) (runes lo hi)) ranges.
Definition bbase : base := Base (List.length s) (fun rs => blit (utf8s rs)) (fun ranges i => List.concat (bcls_lists ranges i))
  (bone (fun _ => true)) (bone (cs_has (cs_compl (cs_new [x0a])))) (fun a i => empty_op_holds s i (assert_byte a)).
Notation bends := (gends bbase).

Lemma utf8_len : forall r, 0 < List.length (utf8 r).
Proof. intro r. unfold utf8. repeat (destruct (_ : bool); cbn; [lia|]). cbn. lia. Qed.
Lemma blit_ahead : forall u, ahead bbase (match u with [] => false | _ => true end) (blit u).
Proof.
  intros u i j Hi Hj. unfold blit in Hj. unfold beqb in Hj. destruct (list_eq_dec _ _ _) as [E|]; [|destruct Hj]. destruct Hj as [<-|[]].
  apply (f_equal (@List.length byte)) in E. rewrite firstn_length, skipn_length in E. cbn [b_len bbase]. cbn in Hi. destruct u; cbn [List.length] in *; lia.
Qed.
Lemma bone_ahead : forall f, ahead bbase true (bone f).
Proof.
  intros f i j Hi Hj. unfold bone in Hj. destruct (nth_error s i) eqn:E; [|destruct Hj]. destruct (f b); [|destruct Hj]. destruct Hj as [<-|[]].
  assert (i < List.length s) by (apply nth_error_Some; congruence). cbn. lia.
Qed.
Lemma bends_ahead : forall e, fits e -> ahead bbase (negb (nullable e)) (bends e).
Proof.
  apply gends_ahead.
  - intros rs i j Hi Hj. pose proof (blit_ahead (utf8s rs) i j Hi Hj) as H. destruct rs as [|r rs]; [exact H|].
    cbn [utf8s flat_map] in H. pose proof (utf8_len r). destruct (utf8 r); [cbn in *; lia|exact H].
  - intros rs i j Hi Hj. cbn [b_cls bbase] in Hj. apply in_concat in Hj. destruct Hj as (l & Hl & Hj). unfold bcls_lists in Hl. apply in_flat_map in Hl. destruct Hl as ((lo & hi) & _ & Hl).
    destruct (_ : bool).
    + destruct Hl as [<-|[]]. eapply bone_ahead; eassumption.
    + apply in_map_iff in Hl. destruct Hl as (r & <- & _). pose proof (blit_ahead _ i j Hi Hj) as H. pose proof (utf8_len r). destruct (utf8 r); [cbn in *; lia|exact H].
  - apply bone_ahead.
  - apply bone_ahead.
Qed.

Definition res (o : option nat) : pres := match o with Some m => RSucc m [] | None => RFail end.
Definition above (n : nat) (Fs : env) : Prop := Forall (fun F : frame => exists m q, F = [(uniq m, q)] /\ n < m) Fs.
Lemma above_le : forall m n Fs, m <= n -> above n Fs -> above m Fs.
Proof. intros m n Fs L. unfold above. apply Forall_impl. intros F (x & q & -> & H). exists x, q. split; [reflexivity|lia]. Qed.
Lemma lookup_above : forall Fs n b E, above n Fs -> lookup (Fs ++ [(uniq n, b)] :: E) (uniq n) = Some (b, [(uniq n, b)] :: E).
Proof.
  intros Fs n b E H. induction H as [|F Fs (m & q & -> & L) H IH].
  - cbn. rewrite String.eqb_refl. reflexivity.
  - cbn [app lookup assoc]. destruct (String.eqb_spec (uniq m) (uniq n)) as [Q|Q]; [apply uniq_inj in Q; lia|]. exact IH.
Qed.

Lemma res_nofail : forall o m, o = Some m -> res o <> RFail.
Proof. intros o m ->. discriminate. Qed.
Lemma pure_seq : forall E p k i w L K,
  (exists j, L = [j] /\ peg E p i w (RSucc j []) w /\ peg E k j w (res (K j)) w) \/ (L = [] /\ peg E p i w RFail w) ->
  peg E (p_concat [p; k]) i w (res (pick K L)) w.
Proof.
  intros E p k i w L K [(j & -> & Hp & Hk)|(-> & Hp)]; cbn [p_concat fold_left pick].
  - destruct (K j) as [m|]; cbn [res] in *.
    + eapply (peg_seq_ok _ _ _ _ _ _ i j [] w w m []); eassumption.
    + eapply peg_seq_no2; [exact Hp|exact Hk|discriminate].
  - apply peg_seq_no1; [exact Hp|discriminate].
Qed.
Lemma pure_or : forall E K i w ps Ls, Forall2 (fun p L => peg E p i w (res (pick K L)) w) ps Ls -> ps <> [] -> peg E (p_or ps) i w (res (pick K (List.concat Ls))) w.
Proof.
  intros E K i w ps Ls H N. apply or_spec; [exact N|]. clear N. induction H as [|p L ps Ls Hp H IH]; [constructor|].
  cbn [List.concat]. rewrite pick_app. destruct (pick K L) as [m|]; cbn [res] in *.
  - apply fo_here; [exact Hp|discriminate].
  - eapply fo_next; [exact Hp|exact IH].
Qed.
Lemma lit_peg : forall E u i w, (blit u i = [i + List.length u] /\ peg E (PLit u) i w (RSucc (i + List.length u) []) w) \/ (blit u i = [] /\ peg E (PLit u) i w RFail w).
Proof.
  intros E u i w. unfold blit, beqb. destruct (list_eq_dec _ _ _) as [Q|Q]; [left|right]; (split; [reflexivity|]); constructor; exact Q.
Qed.
Lemma one_peg : forall E c i w, (exists j, bone (cs_has c) i = [j] /\ peg E (PClass c) i w (RSucc j []) w) \/ (bone (cs_has c) i = [] /\ peg E (PClass c) i w RFail w).
Proof.
  intros E c i w. unfold bone. destruct (nth_error s i) as [b|] eqn:Q; [destruct (cs_has c b) eqn:H|].
  - left. exists (S i). split; [reflexivity|]. eapply peg_class_ok; eassumption.
  - right. split; [reflexivity|]. eapply peg_class_fail; eassumption.
  - right. split; [reflexivity|]. eapply peg_class_end; eassumption.
Qed.

Definition star_pat (e : rx) (n : nat) (k : pattern) : pattern * nat :=
  let (p, n') := pi e (S n) (PNonTerm (uniq (S n)) None) in (PGrammar [(uniq (S n), p_or [p; k])] (uniq (S n)), n').
Fixpoint pi_seq (es : list rx) (n : nat) (k : pattern) : pattern * nat :=
  match es with [] => (k, n) | e :: es => let (patt, n) := pi_seq es n k in pi e n patt end.
Fixpoint pi_alts (es : list rx) (n : nat) (k : pattern) : list pattern * nat :=
  match es with [] => ([], n) | e :: es => let (p, n) := pi e n k in let (ps, n) := pi_alts es n k in (p :: ps, n) end.
Lemma pi_concat_eq : forall es n k, pi (RxConcat es) n k = pi_seq es n k.
Proof. intros es n k. cbn [pi]. induction es as [|e es IH]; [reflexivity|]. cbn [pi_seq]. rewrite IH. reflexivity. Qed.
Lemma pi_alt_eq : forall es n k, pi (RxAlt es) n k = let (alts, n) := pi_alts es n k in (p_or alts, n).
Proof.
  intros es n k. cbn [pi]. assert (Q : forall es n, (fix go (es : list rx) (n : nat) : list pattern * nat :=
         match es with [] => ([], n) | e :: es => let (p, n) := pi e n k in let (ps, n) := go es n in (p :: ps, n) end) es n = pi_alts es n k).
  { clear. induction es as [|e es IH]; intro n; [reflexivity|]. cbn [pi_alts]. destruct (pi e n k) as [p n1]. rewrite IH. reflexivity. }
  rewrite Q. reflexivity.
Qed.
Lemma pi_mono : forall e n k p n', pi e n k = (p, n') -> n <= n'.
Proof.
  induction e using rx_ind'; intros n k p n' Q.
  1-5, 12-13: (cbn in Q; injection Q as <- <-; lia).
  - rewrite pi_concat_eq in Q. revert n k p n' Q. induction H as [|e es He H IH]; intros n k p n' Q; cbn [pi_seq] in Q; [injection Q as <- <-; lia|].
    destruct (pi_seq es n k) as [patt n1] eqn:Q1. specialize (IH _ _ _ _ Q1). specialize (He _ _ _ _ Q). lia.
  - rewrite pi_alt_eq in Q. destruct (pi_alts es n k) as [alts n1] eqn:Q1. injection Q as <- <-. revert n alts n1 Q1.
    induction H as [|e es He H IH]; intros n alts n1 Q1; cbn [pi_alts] in Q1; [injection Q1 as <- <-; lia|].
    destruct (pi e n k) as [p n2] eqn:Q2. destruct (pi_alts es n2 k) as [ps n3] eqn:Q3. injection Q1 as <- <-. specialize (IH _ _ _ Q3). specialize (He _ _ _ _ Q2). lia.
  - cbn [pi] in Q. exact (IHe _ _ _ _ Q).
  - cbn [pi] in Q. destruct (pi e (S n) _) as [q n1] eqn:Q1. injection Q as <- <-. specialize (IHe _ _ _ _ Q1). lia.
  - cbn [pi] in Q. destruct (pi e (S n) _) as [q n1] eqn:Q1. pose proof (IHe _ _ _ _ Q1). pose proof (IHe _ _ _ _ Q). lia.
  - cbn [pi] in Q. destruct (pi e n k) as [q n1] eqn:Q1. injection Q as <- <-. exact (IHe _ _ _ _ Q1).
Qed.

Definition pi_right (e : rx) : Prop := forall n k p n' E K i, pi e n k = (p, n') -> i <= List.length s ->
  (forall Fs j w, above n Fs -> In j (bends e i) -> peg (Fs ++ E) k j w (res (K j)) w) ->
  forall Fs w, above n' Fs -> peg (Fs ++ E) p i w (res (pick K (bends e i))) w.
Lemma star_right : forall e, pi_right e -> fits e -> nullable e = false -> forall n k p n' E K i, star_pat e n k = (p, n') -> i <= List.length s ->
  (forall Fs j w, above n Fs -> In j (bstar bbase (bends e) i) -> peg (Fs ++ E) k j w (res (K j)) w) ->
  forall Fs w, above n' Fs -> peg (Fs ++ E) p i w (res (pick K (bstar bbase (bends e) i))) w.
Proof.
  intros e R F N n k p n' E K i Q Hi Hk Fs w HF. unfold star_pat in Q. destruct (pi e (S n) (PNonTerm (uniq (S n)) None)) as [q n1] eqn:Qe. injection Q as <- <-.
  pose proof (pi_mono _ _ _ _ _ Qe) as M. pose proof (bends_ahead e F) as A. rewrite N in A. cbn [negb] in A.
  set (fr := [(uniq (S n), p_or [q; k])]).
  assert (HF1 : above n (fr :: Fs)). { constructor; [exists (S n), (p_or [q; k]); split; [reflexivity|lia]|]. eapply above_le; [|exact HF]. lia. }
  assert (Main : forall d i, List.length s - i < d -> i <= List.length s ->
    (forall Fs j w, above n Fs -> In j (bstar bbase (bends e) i) -> peg (Fs ++ E) k j w (res (K j)) w) ->
    forall w, peg (fr :: Fs ++ E) (p_or [q; k]) i w (res (pick K (bstar bbase (bends e) i))) w).
  { clear i Hi Hk w. induction d as [|d IH]; intros i L Hi Hk w; [lia|].
    rewrite (star_unroll bbase) by (assumption || exact Hi). rewrite (star_unroll bbase (bends e) i A Hi) in Hk. rewrite pick_app, pick_flat.
    assert (Hq : peg (fr :: Fs ++ E) q i w (res (pick (fun j => pick K (bstar bbase (bends e) j)) (bends e i))) w).
    { apply (R (S n) _ _ _ (fr :: Fs ++ E) (fun j => pick K (bstar bbase (bends e) j)) i Qe Hi) with (Fs := []); [|constructor].
      intros Fs' j w' HF' Hj. destruct (A i j Hi Hj) as [A1 A2]. cbn [b_len bbase] in A2. eapply peg_nonterm; [apply lookup_above; exact HF'|].
      apply IH; [lia|exact A2|]. intros Fs2 m w2 HF2 Hm. apply Hk; [exact HF2|]. apply in_or_app. left. apply in_flat_map. exists j. auto. }
    assert (Hki : peg (fr :: Fs ++ E) k i w (res (K i)) w). { apply (Hk (fr :: Fs)); [exact HF1|]. apply in_or_app. right. left. reflexivity. }
    cbn [p_or rev app fold_left]. destruct (pick _ (bends e i)) as [m|]; cbn [res pick] in *.
    - apply peg_alt_1; [exact Hq|discriminate].
    - eapply peg_alt_2; [exact Hq|]. destruct (K i); exact Hki. }
  eapply peg_grammar; [unfold fr; cbn [assoc]; rewrite String.eqb_refl; reflexivity|]. apply (Main (S (List.length s - i))); [lia|exact Hi|exact Hk].
Qed.
Lemma pi_ok : forall e, fits e -> pi_right e.
Proof.
  induction e using rx_ind'; intros F n k p n' E K i Q Hi Hk Fs w HF.
  - cbn in Q. injection Q as <- <-. cbn [gends pick]. specialize (Hk Fs i w HF (or_introl eq_refl)). destruct (K i); exact Hk.
  - cbn in Q. injection Q as <- <-. apply pure_seq. cbn [gends b_lit bbase] in *. destruct (lit_peg (Fs ++ E) (utf8s rs) i w) as [[L H]|[L H]]; [left|right; auto].
    exists (i + List.length (utf8s rs)). split; [exact L|]. split; [exact H|]. apply Hk; [exact HF|]. rewrite L. left. reflexivity.
  - cbn in Q. injection Q as <- <-. destruct F as [[F1 F2] _]. cbn [gends b_cls bbase] in *. apply pure_or.
    + clear F1. unfold class_alts, bcls_lists in *. induction rs as [|[lo hi] rs IH]; [constructor|]. cbn [flat_map] in *. inversion F2 as [|? ? Fl Fr]; subst.
      assert (Hk' : forall Fs j w, above n Fs -> In j (List.concat (flat_map (fun '(lo, hi) => if ((lo <? 256) && (hi <? 256))%N then [bone (cs_has (cs_range (N2b lo) (N2b hi))) i] else map (fun r => blit (utf8 r) i) (runes lo hi)) rs)) ->
        peg (Fs ++ E) k j w (res (K j)) w) by (intros; apply Hk; [assumption|rewrite concat_app; apply in_or_app; right; assumption]).
      apply Forall2_app; [|apply IH; assumption]. destruct ((lo <? 256) && (hi <? 256))%N eqn:Eb.
      * constructor; [|constructor]. apply pure_seq. destruct (one_peg (Fs ++ E) (cs_range (N2b lo) (N2b hi)) i w) as [(j & L & H)|[L H]]; [left|right; auto].
        exists j. split; [exact L|]. split; [exact H|]. apply Hk; [exact HF|]. cbn [List.concat app]. apply in_or_app. left. rewrite L. left. reflexivity.
      * assert (Hk2 : forall r Fs j w, In r (runes lo hi) -> above n Fs -> In j (blit (utf8 r) i) -> peg (Fs ++ E) k j w (res (K j)) w).
        { intros r Fs' j w' Hr HF' Hj. apply Hk; [exact HF'|]. rewrite concat_app. apply in_or_app. left. apply in_concat. eexists. split; [apply in_map_iff; exists r; split; [reflexivity|exact Hr]|exact Hj]. }
        clear Hk. revert Hk2. generalize (runes lo hi). intro l. induction l as [|r l IHl]; intro Hk2; cbn [map]; constructor.
        -- apply pure_seq. destruct (lit_peg (Fs ++ E) (utf8 r) i w) as [[L H]|[L H]]; [left|right; auto].
           exists (i + List.length (utf8 r)). split; [exact L|]. split; [exact H|]. apply (Hk2 r); [left; reflexivity|exact HF|]. rewrite L. left. reflexivity.
        -- apply IHl. intros. eapply Hk2; [right; eassumption|eassumption|assumption].
    + destruct rs as [|[lo hi] rs]; [contradiction|]. inversion F2 as [|? ? Fl Fr]; subst. cbn [fst snd] in Fl. unfold class_alts. cbn [flat_map]. destruct (_ && _)%N; [discriminate|].
      unfold runes. destruct (N.to_nat (hi + 1 - lo)) eqn:Z; [lia|]. discriminate.
  - cbn in Q. injection Q as <- <-. cbn [gends b_any bbase] in *. apply pure_seq. unfold bone in *. destruct (nth_error s i) as [b|] eqn:Qb.
    + left. exists (S i). assert (i < List.length s) by (apply nth_error_Some; congruence). split; [reflexivity|]. split; [|apply Hk; [exact HF|left; reflexivity]].
      replace (S i) with (i + N.to_nat (bN x01)) by (cbn; lia). constructor. cbn. lia.
    + right. split; [reflexivity|]. apply nth_error_None in Qb. constructor. cbn. lia.
  - cbn in Q. injection Q as <- <-. cbn [gends b_nnl bbase] in *. apply pure_seq. destruct (one_peg (Fs ++ E) (cs_compl (cs_new [x0a])) i w) as [(j & L & H)|[L H]]; [left|right; auto].
    exists j. split; [exact L|]. split; [exact H|]. apply Hk; [exact HF|]. rewrite L. left. reflexivity.
  - rewrite pi_concat_eq in Q. rewrite gends_concat in *. destruct F as [_ F]. apply all_parts_list in F. revert n k p n' K i Q Hi Hk Fs w HF.
    induction H as [|e es He H IH]; intros n k p n' K i Q Hi Hk Fs w HF; cbn [pi_seq gseq] in *.
    + injection Q as <- <-. cbn [pick]. specialize (Hk Fs i w HF (or_introl eq_refl)). destruct (K i); exact Hk.
    + inversion F as [|? ? Fe Fes]; subst. destruct (pi_seq es n k) as [patt n1] eqn:Q1. rewrite pick_flat. apply (He Fe n1 patt p n' E (fun j => pick K (gseq bbase es j)) i Q Hi); [|exact HF].
      intros Fs' j w' HF' Hj. apply (IH Fes n k patt n1 K j Q1); [apply (bends_ahead e Fe i j Hi Hj)| |exact HF'].
      intros Fs2 m w2 HF2 Hm. apply Hk; [exact HF2|]. apply in_flat_map. exists j. auto.
  - rewrite pi_alt_eq in Q. destruct (pi_alts es n k) as [alts n1] eqn:Q1. injection Q as <- <-. rewrite gends_alt in *. destruct F as [F1 F]. apply all_parts_list in F.
    rewrite flat_map_concat_map. rewrite flat_map_concat_map in Hk. assert (M : forall es n k alts n1, pi_alts es n k = (alts, n1) -> n <= n1).
    { clear. induction es as [|e es IH]; intros n k alts n1 Q; cbn [pi_alts] in Q; [injection Q as <- <-; lia|]. destruct (pi e n k) as [p n2] eqn:Q2. destruct (pi_alts es n2 k) as [ps n3] eqn:Q3.
      injection Q as <- <-. pose proof (IH _ _ _ _ Q3). pose proof (pi_mono _ _ _ _ _ Q2). lia. }
    apply pure_or.
    + clear F1. revert n alts n1 Q1 Hk HF. induction H as [|e es He H IH]; intros n alts n1 Q1 Hk HF; cbn [pi_alts map] in *; [injection Q1 as <- <-; constructor|].
      destruct (pi e n k) as [p n2] eqn:Q2. destruct (pi_alts es n2 k) as [ps n3] eqn:Q3. injection Q1 as <- <-. inversion F as [|? ? Fe Fes]; subst. pose proof (pi_mono _ _ _ _ _ Q2). pose proof (M _ _ _ _ _ Q3). constructor.
      * eapply (He Fe n k p n2); [exact Q2|exact Hi| |eapply above_le; [|exact HF]; lia]. intros Fs' j w' HF' Hj. apply Hk; [exact HF'|]. cbn [List.concat]. apply in_or_app. left. exact Hj.
      * apply (IH Fes n2 ps n3 Q3); [|exact HF]. intros Fs' j w' HF' Hj. apply Hk; [eapply above_le; [|exact HF']; lia|]. cbn [List.concat]. apply in_or_app. right. exact Hj.
    + destruct es as [|e es]; [contradiction|]. cbn [pi_alts] in Q1. destruct (pi e n k). destruct (pi_alts es _ k). injection Q1 as <- <-. discriminate.
  - cbn [pi gends] in *. eapply IHe; try eassumption. apply F.
  - destruct F as [[F0 F1] F2]. change (pi (RxStar g e) n k) with (star_pat e n k) in Q. cbn [gends] in *. eapply star_right; try eassumption. apply IHe. exact F2.
  - destruct F as [[F0 F1] F2]. change (pi (RxPlus g e) n k) with (let (p, n) := star_pat e n k in pi e n p) in Q. destruct (star_pat e n k) as [q n1] eqn:Q1. cbn [gends] in *. rewrite pick_flat.
    apply (IHe F2 n1 q p n' E (fun j => pick K (bstar bbase (bends e) j)) i Q Hi); [|exact HF]. intros Fs' j w' HF' Hj.
    eapply star_right; [apply IHe; exact F2|exact F2|exact F1|exact Q1|apply (bends_ahead e F2 i j Hi Hj)| |exact HF'].
    intros Fs2 m w2 HF2 Hm. apply Hk; [exact HF2|]. apply in_flat_map. exists j. auto.
  - destruct F as [F0 F]. cbn [pi gends] in *. destruct (pi e n k) as [q n1] eqn:Q1. injection Q as <- <-. cbn [p_or rev app fold_left]. rewrite pick_app.
    assert (Hq : peg (Fs ++ E) q i w (res (pick K (bends e i))) w). { eapply (IHe F); [exact Q1|exact Hi| |exact HF]. intros Fs' j w' HF' Hj. apply Hk; [exact HF'|]. apply in_or_app. left. exact Hj. }
    assert (Hki : peg (Fs ++ E) k i w (res (K i)) w). { apply Hk; [eapply above_le; [|exact HF]; eapply pi_mono; exact Q1|]. apply in_or_app. right. left. reflexivity. }
    destruct (pick K (bends e i)) as [m|]; cbn [res pick] in *; [apply peg_alt_1; [exact Hq|discriminate]|]. eapply peg_alt_2; [exact Hq|]. destruct (K i); exact Hki.
  - cbn in Q. injection Q as <- <-. cbn [gends b_asr bbase] in *. apply pure_seq. destruct (empty_op_holds s i (assert_byte a)) eqn:Qa.
    + left. exists i. split; [reflexivity|]. split; [constructor; exact Qa|apply Hk; [exact HF|left; reflexivity]].
    + right. split; [reflexivity|constructor; exact Qa].
  - destruct F as [[] _].
Qed.
Lemma convert_peg : forall e n p n' i w, fits e -> pi e n PEmpty = (p, n') -> i <= List.length s -> peg [] p i w (res (hd_error (bends e i))) w.
Proof.
  intros e n p n' i w F Q Hi. pose proof (pi_ok e F n PEmpty p n' [] Some i Q Hi) as H. replace (hd_error (bends e i)) with (pick Some (bends e i)) by (destruct (bends e i); reflexivity).
  apply (H ltac:(intros; cbn; constructor) [] w). constructor.
Qed.
End Peg.
