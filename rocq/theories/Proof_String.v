(** Set.String writes a text that reads back as the set. *)
From Verif Require Import Base Model_Charset Proof_Charset Model_String Spec_String.

Definition q (n : nat) : list byte := quote_rune (N2b (N.of_nat n)).

Definition show (r : nat * nat) : list byte :=
  if fst r =? snd r then q (fst r) else q (fst r) ++ [x2e; x2e] ++ q (snd r).

Definition closed (l : list (nat * nat)) : list byte := concat (map (fun r => show r ++ [x2c]) l).

Fixpoint join (l : list (nat * nat)) : list byte :=
  match l with
  | [] => []
  | [r] => show r
  | r :: l => show r ++ x2c :: join l
  end.

Fixpoint tidyn (l : list (nat * nat)) : Prop :=
  match l with
  | [] => True
  | (lo, hi) :: l => lo <= hi /\ match l with [] => True | (lo', _) :: _ => hi + 1 < lo' end /\ tidyn l
  end.

Definition inside (l : list (nat * nat)) (n : nat) : Prop := exists lo hi, In (lo, hi) l /\ lo <= n <= hi.

(* ---------- reading ---------- *)

Lemma read_rune_q : forall n t, n < 256 -> read_rune (q n ++ t) = Some (N.of_nat n, t).
Proof.
  intros n t H.
  assert (A : forall b, read_rune (quote_rune b ++ t) = Some (bN b, t)) by (intro b; destruct b; reflexivity).
  unfold q. rewrite A, bN_N2b by lia. reflexivity.
Qed.

Lemma q_head : forall n, exists u, q n = x27 :: u.
Proof. intro n. unfold q, quote_rune. eexists. reflexivity. Qed.

Lemma read_item_show : forall lo hi x t, lo < 256 -> hi < 256 -> x = x2c \/ x = x7d ->
  read_item (show (lo, hi) ++ x :: t) = Some (N.of_nat lo, N.of_nat hi, x :: t).
Proof.
  intros lo hi x t H1 H2 Hx. unfold show, read_item. cbn [fst snd].
  destruct (lo =? hi) eqn:E.
  - apply Nat.eqb_eq in E. subst. rewrite read_rune_q by lia. destruct Hx; subst; reflexivity.
  - rewrite <- !app_assoc. rewrite read_rune_q by lia. cbn [app]. rewrite read_rune_q by lia. reflexivity.
Qed.

Definition toN (r : nat * nat) : N * N := (N.of_nat (fst r), N.of_nat (snd r)).

Lemma read_items_join : forall l fuel t, l <> [] -> (forall r, In r l -> fst r < 256 /\ snd r < 256) -> length l <= fuel ->
  read_items fuel (join l ++ x7d :: t) = Some (map toN l, t).
Proof.
  induction l as [|[lo hi] l IH]; intros fuel t N1 B L; [congruence|].
  destruct fuel; [simpl in L; lia|]. cbn [length] in L.
  destruct (B (lo, hi) (or_introl eq_refl)) as [B1 B2]. cbn [fst snd] in B1, B2.
  destruct l as [|r l].
  - change (join [(lo, hi)]) with (show (lo, hi)). cbn [read_items].
    rewrite read_item_show by auto. reflexivity.
  - change (join ((lo, hi) :: r :: l)) with (show (lo, hi) ++ x2c :: join (r :: l)).
    cbn [read_items]. rewrite <- app_assoc. cbn [app]. rewrite read_item_show by auto.
    rewrite IH; [reflexivity|discriminate| |lia]. intros r' H. apply B. right. exact H.
Qed.

Lemma show_len : forall r, 0 < length (show r).
Proof.
  intros [lo hi]. unfold show. destruct (q_head lo) as [u E]. cbn [fst snd]. rewrite E. destruct (lo =? hi); simpl; lia.
Qed.

Lemma join_len : forall l, length l <= length (join l).
Proof.
  induction l as [|r l IH]; [simpl; lia|]. pose proof (show_len r).
  destruct l as [|r' l]; [simpl; lia|].
  change (join (r :: r' :: l)) with (show r ++ x2c :: join (r' :: l)).
  rewrite app_length. cbn [length] in *. lia.
Qed.

Lemma read_braces_join : forall l t, (forall r, In r l -> fst r < 256 /\ snd r < 256) ->
  read_braces ((x7b :: join l ++ [x7d]) ++ t) = Some (map toN l, t).
Proof.
  intros l t B. cbn [app]. rewrite <- app_assoc. cbn [app]. destruct l as [|r l]; [reflexivity|].
  assert (Q : read_items (length (join (r :: l) ++ x7d :: t)) (join (r :: l) ++ x7d :: t) = Some (map toN (r :: l), t)).
  { apply read_items_join; [discriminate|exact B|]. rewrite app_length. pose proof (join_len (r :: l)). lia. }
  destruct (q_head (fst r)) as [u E].
  assert (H : exists v, join (r :: l) ++ x7d :: t = x27 :: v).
  { destruct l; cbn [join]; unfold show; rewrite E; destruct (fst r =? snd r); eexists; reflexivity. }
  destruct H as [v H]. rewrite H in *. exact Q.
Qed.

(* ---------- writing ---------- *)

Lemma closed_app : forall l r, closed (l ++ [r]) = closed l ++ show r ++ [x2c].
Proof. intros. unfold closed. rewrite map_app, concat_app. cbn. rewrite app_nil_r. reflexivity. Qed.

Lemma closed_join : forall l r, closed (l ++ [r]) = join (l ++ [r]) ++ [x2c].
Proof.
  induction l as [|a l IH]; intro r.
  - cbn. rewrite app_nil_r. reflexivity.
  - change (closed ((a :: l) ++ [r])) with ((show a ++ [x2c]) ++ closed (l ++ [r])). rewrite IH.
    destruct (l ++ [r]) as [|b m] eqn:E; [destruct l; discriminate|].
    cbn [app]. rewrite E. change (join (a :: b :: m)) with (show a ++ x2c :: join (b :: m)).
    rewrite <- !app_assoc. reflexivity.
Qed.

Lemma join_app : forall l r, join (l ++ [r]) = closed l ++ show r.
Proof.
  intros l r. pose proof (closed_join l r) as H. rewrite closed_app in H. rewrite app_assoc in H.
  apply app_inj_tail in H. symmetry. apply H.
Qed.

Lemma drop_comma_closed : forall l, drop_comma (closed l) = join l.
Proof.
  intro l. destruct l as [|r l _] using rev_ind; [reflexivity|].
  rewrite closed_join. unfold drop_comma. rewrite rev_app_distr. cbn [rev app]. apply rev_involutive.
Qed.

Lemma q_last : forall n, exists u, q n = u ++ [x27].
Proof. intro n. unfold q, quote_rune. rewrite app_comm_cons. eexists. reflexivity. Qed.

Lemma drop_comma_q : forall s n, drop_comma (s ++ q n) = s ++ q n.
Proof.
  intros s n. destruct (q_last n) as [u ->]. unfold drop_comma. rewrite app_assoc, rev_app_distr. reflexivity.
Qed.

Lemma tidyn_app : forall l lo hi, tidyn l -> (forall r, In r l -> snd r + 1 < lo) -> lo <= hi -> tidyn (l ++ [(lo, hi)]).
Proof.
  induction l as [|[a b] l IH]; intros lo hi T B H.
  - simpl. auto.
  - cbn [app tidyn] in *. destruct T as (T1 & T2 & T3). split; [exact T1|]. split.
    + destruct l as [|[a' b'] l]; cbn [app]; [apply (B (a, b)); left; reflexivity|exact T2].
    + apply IH; auto. intros r Hr. apply B. right. exact Hr.
Qed.

Section Loop.
Variable c : cset.
Definition h (n : nat) : bool := cs_has c (N2b (N.of_nat n)).

Lemma step_eq : forall s inr b, string_step c (s, inr) b =
  if h b && (b =? 255) then (s ++ q b, inr)
  else if h b && negb inr then ((if h (b + 1) then s ++ q b ++ [x2e; x2e] else s), true)
  else if negb (h b) && inr then (s ++ q (b - 1) ++ [x2c], false)
  else (s, inr).
Proof. reflexivity. Qed.

(** after the bytes below b *)
Definition inv (b : nat) (st : list byte * bool) : Prop :=
  exists l, tidyn l /\
    (snd st = false /\ fst st = closed l /\ (forall n, n < b -> (h n = true <-> inside l n)) /\ (forall r, In r l -> snd r + 1 < b)
     \/ snd st = true /\ exists lo, lo < b /\ fst st = closed l ++ (if h (lo + 1) then q lo ++ [x2e; x2e] else []) /\
         (forall n, lo <= n < b -> h n = true) /\ (forall n, n < lo -> (h n = true <-> inside l n)) /\ (forall r, In r l -> snd r + 1 < lo)).

Lemma inside_app : forall l lo hi n, inside (l ++ [(lo, hi)]) n <-> inside l n \/ lo <= n <= hi.
Proof.
  intros l lo hi n. unfold inside. split.
  - intros (a & b & I & H). apply in_app_iff in I. destruct I as [I|[I|[]]]; [left; eauto|]. inversion I. subst. auto.
  - intros [(a & b & I & H)|H]; [exists a, b|exists lo, hi]; split; auto; apply in_app_iff; auto. right. left. reflexivity.
Qed.

Lemma inside_below : forall l n k, (forall r, In r l -> snd r + 1 < k) -> inside l n -> n + 1 < k.
Proof. intros l n k B (a & b & I & H). apply B in I. cbn [snd] in I. lia. Qed.

Lemma inv_step : forall b st, b < 255 -> inv b st -> inv (S b) (string_step c st b).
Proof.
  intros b [s inr] Hb (l & T & I). rewrite step_eq.
  destruct (Nat.eqb_spec b 255) as [|Nb]; [lia|]. rewrite andb_false_r.
  destruct I as [(E1 & E2 & M & B)|(E1 & lo & L & E2 & In1 & M & B)]; cbn [fst snd] in *; subst inr s.
  - destruct (h b) eqn:Eh; cbn [andb negb].
    + exists l. split; [exact T|]. right. split; [reflexivity|]. exists b. cbn [fst].
      split; [lia|]. split; [|split; [|split; [exact M|exact B]]].
      * destruct (h (b + 1)); [reflexivity|symmetry; apply app_nil_r].
      * intros n Hn. assert (n = b) by lia. subst. exact Eh.
    + exists l. split; [exact T|]. left. cbn [fst snd]. split; [reflexivity|]. split; [reflexivity|]. split.
      * intros n Hn. destruct (Nat.eq_dec n b) as [->|]; [|apply M; lia]. rewrite Eh. split; [discriminate|].
        intro I. apply (inside_below l b b) in I; [lia|exact B].
      * intros r Hr. apply B in Hr. lia.
  - destruct (h b) eqn:Eh; cbn [andb negb].
    + exists l. split; [exact T|]. right. split; [reflexivity|]. exists lo. cbn [fst].
      split; [lia|]. split; [reflexivity|]. split; [|split; [exact M|exact B]].
      intros n Hn. destruct (Nat.eq_dec n b) as [->|]; [exact Eh|]. apply In1. lia.
    + exists (l ++ [(lo, b - 1)]). split; [apply tidyn_app; auto; lia|]. left. cbn [fst snd].
      split; [reflexivity|]. split; [|split].
      * rewrite closed_app, <- !app_assoc. f_equal. unfold show. cbn [fst snd].
        destruct (Nat.eqb_spec lo (b - 1)) as [->|].
        -- replace (b - 1 + 1) with b by lia. rewrite Eh. reflexivity.
        -- rewrite (In1 (lo + 1)) by lia. rewrite <- !app_assoc. reflexivity.
      * intros n Hn. rewrite inside_app. destruct (Nat.lt_ge_cases n lo) as [Hlo|Hlo].
        -- rewrite M by lia. split; [auto|]. intros [I|I]; [exact I|lia].
        -- destruct (Nat.eq_dec n b) as [->|].
           ++ rewrite Eh. split; [discriminate|]. intros [I|I]; [|lia].
              apply (inside_below l b lo B) in I. lia.
           ++ rewrite In1 by lia. split; [intros _; right; lia|reflexivity].
      * intros r Hr. apply in_app_iff in Hr. destruct Hr as [Hr|[<-|[]]]; [apply B in Hr; lia|cbn [snd]; lia].
Qed.

Lemma inv_loop : forall k b st, b + k <= 255 -> inv b st -> inv (b + k) (fold_left (string_step c) (seq b k) st).
Proof.
  induction k as [|k IH]; intros b st H I; [rewrite Nat.add_0_r; exact I|].
  cbn [seq fold_left]. replace (b + S k) with (S b + k) by lia. apply IH; [lia|]. apply inv_step; [lia|exact I].
Qed.

Lemma tidyn_lohi : forall l r, tidyn l -> In r l -> fst r <= snd r.
Proof.
  induction l as [|[a b] l IH]; intros r T I; [destruct I|]. destruct I as [<-|I]; [apply T|]. apply IH; [apply T|exact I].
Qed.

Lemma string_ranges : exists l, cs_string c = x7b :: join l ++ [x7d] /\ tidyn l /\
  (forall r, In r l -> snd r < 256) /\ (forall n, n < 256 -> (h n = true <-> inside l n)).
Proof.
  unfold cs_string.
  assert (E0 : fold_left (string_step c) (seq 0 256) ([], false) =
               string_step c (fold_left (string_step c) (seq 0 255) ([], false)) 255).
  { change (seq 0 256) with (seq 0 255 ++ [255]). rewrite fold_left_app. reflexivity. }
  rewrite E0. clear E0.
  assert (I0 : inv 0 ([], false)).
  { exists []. split; [exact Logic.I|]. left. split; [reflexivity|]. split; [reflexivity|]. split; [intros n Hn; lia|intros r []]. }
  pose proof (inv_loop 255 0 _ (le_n _) I0) as I. cbn [Nat.add] in I.
  destruct (fold_left (string_step c) (seq 0 255) ([], false)) as [s inr].
  destruct I as (l & T & I). rewrite step_eq. rewrite Nat.eqb_refl.
  destruct I as [(E1 & E2 & M & B)|(E1 & lo & L & E2 & In1 & M & B)]; cbn [fst snd] in *; subst inr s.
  - destruct (h 255) eqn:Eh; cbn [andb negb fst].
    + exists (l ++ [(255, 255)]). rewrite drop_comma_q, join_app. split; [reflexivity|].
      split; [apply tidyn_app; auto|]. split.
      * intros r Hr. apply in_app_iff in Hr. destruct Hr as [Hr|[<-|[]]]; [apply B in Hr; lia|cbn [snd]; lia].
      * intros n Hn. rewrite inside_app. destruct (Nat.eq_dec n 255) as [->|].
        -- rewrite Eh. split; auto.
        -- rewrite M by lia. split; [auto|]. intros [I|I]; [exact I|lia].
    + exists l. rewrite drop_comma_closed. split; [reflexivity|]. split; [exact T|]. split.
      * intros r Hr. apply B in Hr. lia.
      * intros n Hn. destruct (Nat.eq_dec n 255) as [->|]; [|apply M; lia]. rewrite Eh. split; [discriminate|].
        intro I. apply (inside_below l 255 255 B) in I. lia.
  - destruct (h 255) eqn:Eh; cbn [andb negb fst].
    + exists (l ++ [(lo, 255)]).
      assert (Q : h (lo + 1) = true).
      { destruct (Nat.eq_dec lo 254) as [->|]; [exact Eh|apply In1; lia]. }
      rewrite Q, drop_comma_q, join_app. split.
      { f_equal. f_equal. rewrite <- !app_assoc. f_equal. unfold show. cbn [fst snd].
        destruct (Nat.eqb_spec lo 255) as [|Nl]; [lia|]. reflexivity. }
      split; [apply tidyn_app; auto; lia|]. split.
      * intros r Hr. apply in_app_iff in Hr. destruct Hr as [Hr|[<-|[]]]; [apply B in Hr; lia|cbn [snd]; lia].
      * intros n Hn. rewrite inside_app. destruct (Nat.lt_ge_cases n lo) as [Hlo|Hlo].
        -- rewrite M by lia. split; [auto|]. intros [I|I]; [exact I|lia].
        -- destruct (Nat.eq_dec n 255) as [->|].
           ++ rewrite Eh. split; [intros _; right; lia|reflexivity].
           ++ rewrite In1 by lia. split; [intros _; right; lia|reflexivity].
    + exists (l ++ [(lo, 254)]).
      assert (Q : (closed l ++ (if h (lo + 1) then q lo ++ [x2e; x2e] else [])) ++ q (255 - 1) ++ [x2c] = closed (l ++ [(lo, 254)])).
      { rewrite closed_app, <- !app_assoc. f_equal. unfold show. cbn [fst snd]. change (255 - 1) with 254.
        destruct (Nat.eqb_spec lo 254) as [->|].
        - change (254 + 1) with 255. rewrite Eh. reflexivity.
        - rewrite (In1 (lo + 1)) by lia. rewrite <- !app_assoc. reflexivity. }
      rewrite Q, drop_comma_closed. split; [reflexivity|]. split; [apply tidyn_app; auto; lia|]. split.
      * intros r Hr. apply in_app_iff in Hr. destruct Hr as [Hr|[<-|[]]]; [apply B in Hr; lia|cbn [snd]; lia].
      * intros n Hn. rewrite inside_app. destruct (Nat.lt_ge_cases n lo) as [Hlo|Hlo].
        -- rewrite M by lia. split; [auto|]. intros [I|I]; [exact I|lia].
        -- destruct (Nat.eq_dec n 255) as [->|].
           ++ rewrite Eh. split; [discriminate|]. intros [I|I]; [|lia]. apply (inside_below l 255 lo B) in I. lia.
           ++ rewrite In1 by lia. split; [intros _; right; lia|reflexivity].
Qed.
End Loop.

Lemma tidy_map : forall l, tidyn l -> tidy (map toN l).
Proof.
  induction l as [|[a b] l IH]; intro T; [exact Logic.I|]. destruct T as (T1 & T2 & T3).
  cbn [map tidy toN fst snd]. split; [lia|]. split; [|apply IH, T3]. destruct l as [|[a' b'] l]; [exact Logic.I|]. cbn [map toN fst snd]. lia.
Qed.

Lemma string_prefix : forall c, exists l, (forall t, read_braces (cs_string c ++ t) = Some (l, t)) /\ tidy l /\
  forall b, cs_has c b = true <-> exists lo hi, In (lo, hi) l /\ (lo <= bN b <= hi)%N.
Proof.
  intro c. destruct (string_ranges c) as (l & E & T & B & M). exists (map toN l). split.
  - intro t. rewrite E. apply read_braces_join. intros r Hr. pose proof (B r Hr). pose proof (tidyn_lohi l r T Hr). lia.
  - split; [apply tidy_map, T|]. intro b.
    assert (Q : cs_has c b = h c (N.to_nat (bN b))) by (unfold h; rewrite N2Nat.id, N2b_bN; reflexivity).
    rewrite Q, M by (pose proof (bN_lt b); lia). split.
    + intros (lo & hi & I & H). exists (N.of_nat lo), (N.of_nat hi). split; [apply (in_map toN) in I; exact I|lia].
    + intros (lo & hi & I & H). apply in_map_iff in I. destruct I as ([a b'] & E1 & I). inversion E1. subst.
      exists a, b'. cbn [fst snd] in H. split; [exact I|lia].
Qed.

Lemma p_string : forall c, exists l, read_set (cs_string c) = Some l /\ tidy l /\
  forall b, cs_has c b = true <-> exists lo hi, In (lo, hi) l /\ (lo <= bN b <= hi)%N.
Proof.
  intro c. destruct (string_prefix c) as (l & R & T & M). exists l. split; [|auto].
  unfold read_set. rewrite <- (app_nil_r (cs_string c)), R. reflexivity.
Qed.

Lemma p_string_inj : forall c d, cs_wf c -> cs_wf d -> cs_string c = cs_string d -> c = d.
Proof.
  intros c d Wc Wd E. apply cs_ext; auto. intro b.
  destruct (p_string c) as (l & R & _ & M). destruct (p_string d) as (l' & R' & _ & M').
  rewrite E, R' in R. inversion R. subst l'. specialize (M b). specialize (M' b).
  destruct (cs_has c b), (cs_has d b); auto; [symmetry; apply M', M; reflexivity|apply M, M'; reflexivity].
Qed.
