(** The printed form of a legible pattern tells its meaning. *)
From Coq Require Import String.
From Verif Require Import Base Model_Charset Proof_Charset Model_Isa Model_Capture Model_VM Model_Pattern Spec_Peg Proof_Eval Proof_Get
  Model_String Spec_String Proof_String Model_Pretty Spec_Pretty.
Local Open Scope list_scope.
Local Open Scope nat_scope.

(** results, without the identifiers of captures if [cap] is true *)
Definition hide (cap : bool) (ts : list ctree) : list ctree := if cap then map anon_tree ts else ts.
Definition rmap {CS} (cap : bool) (r : res CS) : res CS :=
  match r with (Some (RSucc j ts), w, x) => (Some (RSucc j (hide cap ts)), w, x) | _ => r end.
Definition same_eval (cap : bool) (p q : pattern) : Prop :=
  forall s CS (check : nat -> CS -> list byte -> list byte -> nat -> Z -> Z -> CS * option nat) n E i w,
    rmap cap (eval s check n E p i w) = rmap cap (eval s check n E q i w).
Lemma hide_app : forall cap a b, hide cap (a ++ b) = hide cap a ++ hide cap b.
Proof. intros [] a b; [apply map_app|reflexivity]. Qed.
Ltac same_res H := cbn [rmap] in H; try discriminate; injection H; intros; subst.
Lemma rm_bind : forall CS cap (a b : res CS) f g, rmap cap a = rmap cap b -> (forall j w, rmap cap (f j w) = rmap cap (g j w)) ->
  rmap cap (ebind a f) = rmap cap (ebind b g).
Proof.
  intros CS cap [[[[|j ts|j]|] w] x] [[[[|j' ts'|j']|] w'] x'] f g H K; same_res H; try reflexivity.
  cbn [ebind]. specialize (K j' w'). destruct (f j' w') as [[[[|k us|k]|] v] y], (g j' w') as [[[[|k' us'|k']|] v'] y']; same_res K; try reflexivity.
  cbn [rmap]. rewrite !hide_app. congruence.
Qed.
Lemma rm_orelse : forall CS cap (a b : res CS) f g, rmap cap a = rmap cap b -> (forall w, rmap cap (f w) = rmap cap (g w)) ->
  rmap cap (eorelse a f) = rmap cap (eorelse b g).
Proof.
  intros CS cap [[[[|j ts|j]|] w] x] [[[[|j' ts'|j']|] w'] x'] f g H K; same_res H; try reflexivity; cbn [eorelse]; try exact H.
  specialize (K w'). destruct (f w') as [[[[|k us|k]|] v] y], (g w') as [[[[|k' us'|k']|] v'] y']; same_res K; try reflexivity.
  cbn [rmap]. congruence.
Qed.
Lemma rm_not : forall CS cap i (a b : res CS), rmap cap a = rmap cap b -> rmap cap (enot CS i a) = rmap cap (enot CS i b).
Proof. intros CS cap i [[[[|j ts|j]|] w] x] [[[[|j' ts'|j']|] w'] x'] H; same_res H; reflexivity. Qed.
Lemma rm_map : forall CS cap (F : nat -> list ctree -> pres) (G : nat -> list ctree -> pres) (a b : res CS), rmap cap a = rmap cap b ->
  (forall j ts us (w : world CS) x, hide cap ts = hide cap us -> rmap cap (Some (F j ts), w, x) = rmap cap (Some (G j us), w, x)) -> rmap cap (emap F a) = rmap cap (emap G b).
Proof. intros CS cap F G [[[[|j ts|j]|] w] x] [[[[|j' ts'|j']|] w'] x'] H K; same_res H; try reflexivity. apply K. assumption. Qed.

(** the set of some ranges *)
Definition in_ranges (l : list (N * N)) (b : byte) : bool :=
  existsb (fun r => (fst r <=? bN b)%N && (bN b <=? snd r)%N) l.
Definition cs_of (l : list (N * N)) : cset := cs_new (filter (in_ranges l) all_bytes).

Fixpoint suff (p : pattern) (t : list byte) : pattern * list byte :=
  match t with
  | x2a :: t => suff (PStar p) t
  | x2b :: t => suff (PPlus p) t
  | x3f :: t => suff (POpt p) t
  | _ => (p, t)
  end.

Fixpoint span (t : list byte) : list byte * list byte :=
  match t with
  | b :: u => if ident b then let (a, r) := span u in (b :: a, r) else ([], t)
  | [] => ([], [])
  end.

Fixpoint strip (a t : list byte) : option (list byte) :=
  match a, t with
  | [], _ => Some t
  | b :: a, c :: t => if byte_eqb b c then strip a t else None
  | _ :: _, [] => None
  end.

(** a byte from its decimal digits *)
Definition undec (d : list byte) : option byte := find (fun b => match strip (dec b) d with Some [] => true | _ => false end) all_bytes.
Lemma undec_dec : forall b, undec (dec b) = Some b.
Proof. destruct b; vm_compute; reflexivity. Qed.
(** what is in front of the first comma *)
Fixpoint till (t : list byte) : list byte * list byte :=
  match t with
  | x2c :: _ => ([], t)
  | b :: u => let (a, r) := till u in (b :: a, r)
  | [] => ([], [])
  end.
Lemma till_app : forall m r, ~ In x2c m -> till (m ++ x2c :: r) = (m, x2c :: r).
Proof.
  induction m as [|b m IH]; intros r H; [reflexivity|]. cbn [app]. assert (N : b <> x2c) by (intros ->; apply H; left; reflexivity).
  assert (M : ~ In x2c m) by (intro M; apply H; right; exact M). specialize (IH r M).
  transitivity (let (a, u) := till (m ++ x2c :: r) in (b :: a, u)); [destruct b; try reflexivity; congruence|]. rewrite IH. reflexivity.
Qed.

Section Parse.
Variable unquote : list byte -> option (list byte * list byte).

Definition then_close (f : pattern -> pattern) (r : option (pattern * list byte)) (close : list byte) : option (pattern * list byte) :=
  match r with
  | Some (p, t) => match strip close t with Some t => Some (suff (f p) t) | None => None end
  | None => None
  end.

Fixpoint parse (fuel : nat) (t : list byte) : option (pattern * list byte) :=
  match fuel with
  | O => None
  | S fuel =>
      match strip [x21] t with Some t => match parse fuel t with Some (p, t) => Some (PNot p, t) | None => None end | None =>
      match strip [x26] t with Some t => match parse fuel t with Some (p, t) => Some (PAnd p, t) | None => None end | None =>
      match strip [x2e] t with Some t => Some (suff (PDot x01) t) | None =>
      match strip [x22] t with Some _ => match unquote t with Some (s, t) => Some (suff (PLit s) t) | None => None end | None =>
      match strip [x5b] t with Some t => match read_braces t with Some (l, t) => then_close id (Some (PClass (cs_of l), t)) [x5d] | _ => None end | None =>
      match strip [x28] t with Some t =>
          match parse fuel t with
          | Some (a, u) =>
              match strip [x20; x2f; x20] u with Some v => then_close (PAlt a) (parse fuel v) [x29] | None =>
              match strip [x20] u with Some v => then_close (PSeq a) (parse fuel v) [x29] | None => None end end
          | None => None
          end | None =>
      match strip [x7b; x7b; x20] t with Some t => then_close (fun p => PMemo p 0) (parse fuel t) [x20; x7d; x7d] | None =>
      match strip [x7b; x20] t with Some t => then_close (fun p => PCap p 0) (parse fuel t) [x20; x7d] | None =>
      let (a, u) := span t in
      match strip [x28] u with
      | Some t =>
          match strip (txt "empty") a with
          | Some _ => let (d, v) := span t in match undec d with Some op => then_close id (Some (PEmptyOp op, v)) [x29] | None => None end
          | None =>
          match strip (txt "err") a with
          | Some _ =>
              let (m, v) := till t in
              match strip [x2c; x20] v with
              | Some v =>
                  match strip (txt "<invalid>") v with
                  | Some v => then_close id (Some (PError (string_of_list_byte m) None, v)) [x29]
                  | None => then_close (fun p => PError (string_of_list_byte m) (Some p)) (parse fuel v) [x29]
                  end
              | None => None
              end
          | None => then_close PSearch (parse fuel t) [x29]
          end end
      | None => Some (suff (PNonTerm (string_of_list_byte a) None) u)
      end
      end end end end end end end end
  end.

Lemma parse_not : forall f t, parse (S f) (x21 :: t) = match parse f t with Some (p, t) => Some (PNot p, t) | None => None end.
Proof. reflexivity. Qed.
Lemma parse_and : forall f t, parse (S f) (x26 :: t) = match parse f t with Some (p, t) => Some (PAnd p, t) | None => None end.
Proof. reflexivity. Qed.
Lemma parse_dot : forall f t, parse (S f) (x2e :: t) = Some (suff (PDot x01) t).
Proof. reflexivity. Qed.
Lemma parse_lit : forall f t, parse (S f) (x22 :: t) = match unquote (x22 :: t) with Some (s, t) => Some (suff (PLit s) t) | None => None end.
Proof. reflexivity. Qed.
Lemma parse_class : forall f t l u, read_braces t = Some (l, x5d :: u) -> parse (S f) (x5b :: t) = Some (suff (PClass (cs_of l)) u).
Proof. intros f t l u H. transitivity (match read_braces t with Some (l, t) => then_close id (Some (PClass (cs_of l), t)) [x5d] | _ => None end); [reflexivity|]. rewrite H. reflexivity. Qed.
Lemma parse_two : forall f t, parse (S f) (x28 :: t) =
          match parse f t with
          | Some (a, u) =>
              match strip [x20; x2f; x20] u with Some v => then_close (PAlt a) (parse f v) [x29] | None =>
              match strip [x20] u with Some v => then_close (PSeq a) (parse f v) [x29] | None => None end end
          | None => None
          end.
Proof. reflexivity. Qed.
Lemma parse_alt : forall f t a u, parse f t = Some (a, x20 :: x2f :: x20 :: u) -> parse (S f) (x28 :: t) = then_close (PAlt a) (parse f u) [x29].
Proof. intros f t a u H. rewrite parse_two, H. reflexivity. Qed.
Lemma parse_seq : forall f t a c u, parse f t = Some (a, x20 :: c :: u) -> c <> x2f -> parse (S f) (x28 :: t) = then_close (PSeq a) (parse f (c :: u)) [x29].
Proof.
  intros f t a c u H N. rewrite parse_two, H. cbn [strip]. change (byte_eqb x20 x20) with true. cbn iota.
  destruct (byte_eqb x2f c) eqn:E; [apply byte_eqb_eq in E; congruence|]. reflexivity.
Qed.
Lemma parse_memo : forall f t, parse (S f) (x7b :: x7b :: x20 :: t) = then_close (fun p => PMemo p 0) (parse f t) [x20; x7d; x7d].
Proof. reflexivity. Qed.
Lemma parse_cap : forall f t, parse (S f) (x7b :: x20 :: t) = then_close (fun p => PCap p 0) (parse f t) [x20; x7d].
Proof. reflexivity. Qed.
Definition names f t :=
      let (a, u) := span t in
      match strip [x28] u with
      | Some t =>
          match strip (txt "empty") a with
          | Some _ => let (d, v) := span t in match undec d with Some op => then_close id (Some (PEmptyOp op, v)) [x29] | None => None end
          | None =>
          match strip (txt "err") a with
          | Some _ =>
              let (m, v) := till t in
              match strip [x2c; x20] v with
              | Some v =>
                  match strip (txt "<invalid>") v with
                  | Some v => then_close id (Some (PError (string_of_list_byte m) None, v)) [x29]
                  | None => then_close (fun p => PError (string_of_list_byte m) (Some p)) (parse f v) [x29]
                  end
              | None => None
              end
          | None => then_close PSearch (parse f t) [x29]
          end end
      | None => Some (suff (PNonTerm (string_of_list_byte a) None) u)
      end.
Lemma parse_name : forall f a t, ident a = true -> parse (S f) (a :: t) = names f (a :: t).
Proof. intros f a t H. destruct a; try reflexivity; discriminate H. Qed.
End Parse.

Definition open_after (t : list byte) : Prop := match t with [] => True | b :: _ => ident b = false /\ b <> x28 end.
Definition after (t : list byte) : Prop :=
  match t with [] => True | b :: _ => ident b = false /\ b <> x28 /\ b <> x2a /\ b <> x2b /\ b <> x3f end.

Lemma after_open : forall t, after t -> open_after t.
Proof. intros [|b t]; simpl; tauto. Qed.

Lemma suff_after : forall p t, after t -> suff p t = (p, t).
Proof. intros p [|b t] H; [reflexivity|]. simpl in H. destruct H as (_ & _ & H1 & H2 & H3). destruct b; try reflexivity; congruence. Qed.

Lemma span_app : forall a t, forallb ident a = true -> open_after t -> span (a ++ t) = (a, t).
Proof.
  induction a as [|b a IH]; intros t H O.
  - destruct t as [|c t]; [reflexivity|]. destruct O as [O _]. simpl. rewrite O. reflexivity.
  - cbn [forallb] in H. apply andb_true_iff in H. destruct H as [H1 H2]. cbn [app span]. rewrite H1, IH by assumption. reflexivity.
Qed.

Lemma span_search : forall t, span (x73 :: x65 :: x61 :: x72 :: x63 :: x68 :: x28 :: t) = ([x73; x65; x61; x72; x63; x68], x28 :: t).
Proof. reflexivity. Qed.

Lemma span_empty : forall t, span (x65 :: x6d :: x70 :: x74 :: x79 :: x28 :: t) = ([x65; x6d; x70; x74; x79], x28 :: t).
Proof. reflexivity. Qed.
Lemma span_err : forall t, span (x65 :: x72 :: x72 :: x28 :: t) = ([x65; x72; x72], x28 :: t).
Proof. reflexivity. Qed.

Lemma cs_of_has : forall c l, (forall b, cs_has c b = true <-> exists lo hi, In (lo, hi) l /\ (lo <= bN b <= hi)%N) ->
  forall b, cs_has (cs_of l) b = cs_has c b.
Proof.
  intros c l M b. specialize (M b).
  assert (A : cs_has (cs_of l) b = true <-> exists lo hi, In (lo, hi) l /\ (lo <= bN b <= hi)%N).
  { unfold cs_of. rewrite cs_new_in, filter_In. unfold in_ranges. rewrite existsb_exists. split.
    - intros (_ & [lo hi] & I & H). cbn [fst snd] in H. apply andb_true_iff in H. destruct H as [H1 H2].
      apply N.leb_le in H1, H2. eauto.
    - intros (lo & hi & I & H1 & H2). split; [apply in_all_bytes|]. exists (lo, hi). split; [exact I|].
      cbn [fst snd]. apply andb_true_iff. split; apply N.leb_le; assumption. }
  destruct (cs_has (cs_of l) b), (cs_has c b); auto; [symmetry; apply M, A; reflexivity|apply A, M; reflexivity].
Qed.

(* ---------- congruences ---------- *)

Section Congruence.
Variable cap : bool.
Notation same_eval := (same_eval cap).
Lemma se_get : forall p, same_eval (get p) p.
Proof. intros p s CS check n E i w. rewrite get_ok. reflexivity. Qed.

Lemma se_trans : forall a b c, same_eval a b -> same_eval b c -> same_eval a c.
Proof. intros a b c H1 H2 s CS check n E i w. rewrite H1. apply H2. Qed.

Lemma se_sym : forall a b, same_eval a b -> same_eval b a.
Proof. intros a b H s CS check n E i w. symmetry. apply H. Qed.

Lemma se_alt : forall a b c d, same_eval a c -> same_eval b d -> same_eval (PAlt a b) (PAlt c d).
Proof. intros a b c d H1 H2 s CS check n E i w. rewrite !eval_alt. apply rm_orelse; [apply H1|]. intro. apply H2. Qed.
Lemma se_seq : forall a b c d, same_eval a c -> same_eval b d -> same_eval (PSeq a b) (PSeq c d).
Proof. intros a b c d H1 H2 s CS check n E i w. rewrite !eval_seq. apply rm_bind; [apply H1|]. intros. apply H2. Qed.
Lemma se_star : forall a b, same_eval a b -> same_eval (PStar a) (PStar b).
Proof.
  intros a b H s CS check n. induction n as [|n IH]; intros E i w; rewrite !eval_star; (apply rm_orelse; [|reflexivity]); (apply rm_bind; [apply H|]); intros.
  - reflexivity.
  - apply IH.
Qed.
Lemma se_plus : forall a b, same_eval a b -> same_eval (PPlus a) (PPlus b).
Proof. intros a b H s CS check n E i w. rewrite !eval_plus. apply se_seq; [exact H|apply se_star, H]. Qed.
Lemma se_opt : forall a b, same_eval a b -> same_eval (POpt a) (POpt b).
Proof. intros a b H s CS check n E i w. rewrite !eval_opt. apply se_alt; [exact H|]. intros ? ? ? ? ? ? ?. reflexivity. Qed.
Lemma se_not : forall a b, same_eval a b -> same_eval (PNot a) (PNot b).
Proof. intros a b H s CS check n E i w. rewrite !eval_not. apply rm_not, H. Qed.
Lemma se_and : forall a b, same_eval a b -> same_eval (PAnd a) (PAnd b).
Proof. intros a b H s CS check n E i w. rewrite !eval_and. apply rm_map; [apply H|]. intros j ts us v x K. cbn [rmap]. rewrite K. reflexivity. Qed.
Lemma se_cap : forall a b id id', cap = true -> same_eval a b -> same_eval (PCap a id) (PCap b id').
Proof.
  intros a b id id' Hc H s CS check n E i w. rewrite !eval_cap. apply rm_map; [apply H|]. intros j ts us v x K. rewrite Hc in *. cbn [rmap hide map anon_tree] in *.
  rewrite K. reflexivity.
Qed.
Lemma se_err : forall a b m, same_eval a b -> same_eval (PError m (Some a)) (PError m (Some b)).
Proof. intros a b m H s CS check n E i w. rewrite !eval_error. apply H. Qed.
Lemma se_memo : forall a b id id', same_eval a b -> same_eval (PMemo a id) (PMemo b id').
Proof. intros a b id id' H s CS check n E i w. rewrite !eval_memo. apply H. Qed.
Lemma se_search : forall a b, same_eval a b -> same_eval (PSearch a) (PSearch b).
Proof.
  intros a b H s CS check n. induction n as [|n IH]; intros E i w; rewrite !eval_search; [reflexivity|].
  apply rm_orelse; [apply H|]. intro. destruct (i <? _); [apply IH|reflexivity].
Qed.
Lemma se_class : forall c d, (forall b, cs_has c b = cs_has d b) -> same_eval (PClass c) (PClass d).
Proof. intros c d H s CS check n E i w. rewrite !eval_class, !class_eval_byte. f_equal. apply byte_eval_ext. exact H. Qed.
End Congruence.

Lemma name_back : forall x, string_of_list_byte (list_byte_of_string x) = x.
Proof. apply string_of_list_byte_of_string. Qed.

Lemma some_inj : forall A (a b : A), Some a = Some b -> a = b.
Proof. congruence. Qed.

(* ---------- reading back ---------- *)

Section Read.
Variable quote : list byte -> list byte.
Variable threshold : nat.
Variable order : list (string * pattern) -> list (string * pattern).
Variable unquote : list byte -> option (list byte * list byte).
Hypothesis Hempty : quote [] = [x22; x22].
Hypothesis Hhead : forall s, exists t, quote s = x22 :: t.
Hypothesis Hun : forall s t, unquote (quote s ++ t) = Some (s, t).
Variable cap : bool.

Notation parse := (parse unquote).
Notation pretty := (pretty quote threshold order).
Notation same_eval := (same_eval cap).
Notation legible := (legible cap).

Definition good_head (t : list byte) : Prop := match t with [] => False | b :: _ => b <> x2f /\ b <> x3c end.

(** the printed text t of a pattern equal to p' is read as p' *)
Definition reads (f : nat) (b : bool) (t : list byte) (p' : pattern) : Prop :=
  forall f' r, f <= f' ->
    (b = false -> open_after r -> parse f' (t ++ r) = Some (suff p' r)) /\
    (after r -> parse f' (t ++ r) = Some (p', r)).

Lemma reads_false : forall f t p', (forall f' r, f <= f' -> open_after r -> parse f' (t ++ r) = Some (suff p' r)) -> reads f false t p'.
Proof.
  intros f t p' H f' r L. split; [intros _; apply H, L|]. intro A. rewrite H by (auto using after_open). rewrite suff_after by exact A. reflexivity.
Qed.

Lemma pretty_reads : forall f p t b, pretty f p = Some t -> legible b p ->
  exists p', same_eval p' p /\ good_head t /\ reads f b t p'.
Proof.
  induction f as [|f IH]; intros p t b H L; [discriminate|]. cbn [Model_Pretty.pretty] in H.
  inversion L as [p0 s E|p0 c E|p0 E|p0 E|p0 x E Nx Ix|p0 x q bq E Lq|p0 l r b1 b2 E Ll Lr|p0 l r b1 b2 E Ll Lr|p0 q E Lq|p0 q E Lq|p0 q E Lq|p0 q bq E Lq|p0 q bq E Lq|p0 q id bq E Lq|p0 q bq E Lq|p0 op E|p0 m q bq E Nm Lq|p0 m E Nm|p0 q id bq E Hcap Lq]; subst; rewrite E in H.
  - apply some_inj in H; subst t. exists (PLit s). split; [rewrite <- E; apply se_get|]. destruct (Hhead s) as [u Hu]. split; [rewrite Hu; split; discriminate|].
    apply reads_false. intros [|f'] r Hl _; [lia|]. rewrite Hu. cbn [app]. rewrite parse_lit. rewrite app_comm_cons, <- Hu, Hun. reflexivity.
  - apply some_inj in H; subst t. destruct (string_prefix c) as (l & R & _ & M). exists (PClass (cs_of l)).
    split; [eapply se_trans; [|apply se_get]; rewrite E; apply se_class, cs_of_has, M|]. split; [split; discriminate|].
    apply reads_false. intros [|f'] r Hl _; [lia|]. 
    change (txt "[") with [x5b]. change (txt "]") with [x5d]. cbn [app]. rewrite <- app_assoc. apply parse_class, R.
  - apply some_inj in H; subst t. exists (PDot x01). split; [rewrite <- E; apply se_get|]. split; [split; discriminate|].
    apply reads_false. intros [|f'] r Hl _; [lia|]. reflexivity.
  - apply some_inj in H; subst t. exists (PLit []). split; [eapply se_trans; [|apply se_get]; rewrite E; intros s CS check n E' i w; rewrite eval_lit, eval_empty; reflexivity|].
    split; [split; discriminate|]. apply reads_false. intros [|f'] r Hl _; [lia|]. cbn [app]. rewrite parse_lit.
    change (x22 :: x22 :: r) with ([x22; x22] ++ r). rewrite <- Hempty, Hun. reflexivity.
  - apply some_inj in H; subst t. exists (PNonTerm x None). split; [rewrite <- E; apply se_get|].
    unfold txt. destruct (list_byte_of_string x) as [|a u] eqn:Ex.
    { exfalso. apply Nx. rewrite <- (name_back x), Ex. reflexivity. }
    assert (Ia : ident a = true) by (cbn [forallb] in Ix; apply andb_true_iff in Ix; apply Ix).
    split; [split; intros ->; discriminate|].
    apply reads_false. intros [|f'] r Hl O; [lia|].
    assert (S : span ((a :: u) ++ r) = (a :: u, r)) by (apply span_app; assumption).
    cbn [app] in *. rewrite parse_name by exact Ia. unfold names. rewrite S, <- Ex, name_back. destruct r as [|c r]; [reflexivity|]. destruct O as [_ O]. cbn [strip]. destruct (byte_eqb x28 c) eqn:Ec; [apply byte_eqb_eq in Ec; congruence|]. reflexivity.
  - destruct (IH _ _ _ H Lq) as (p' & S & G & R). exists p'. split.
    { eapply se_trans; [exact S|]. eapply se_trans; [apply se_get|]. eapply se_trans; [|apply se_get]. rewrite E. intros ? ? ? ? ? ? ?. rewrite eval_inl. reflexivity. }
    split; [exact G|]. intros f' r Hl. apply R. lia.
  - destruct (pretty f (get l)) as [tl|] eqn:El; [|discriminate]. destruct (pretty f (get r)) as [tr|] eqn:Er; [|discriminate]. apply some_inj in H; subst t.
    destruct (IH _ _ _ El Ll) as (pl & Sl & Gl & Rl). destruct (IH _ _ _ Er Lr) as (pr & Sr & Gr & Rr).
    exists (PAlt pl pr). split.
    { eapply se_trans; [|apply se_get]. rewrite E. apply se_alt; eapply se_trans; eauto using se_get. }
    split; [split; discriminate|]. apply reads_false. intros [|f'] u Hl _; [lia|].
    change (txt "(") with [x28]. change (txt " / ") with [x20; x2f; x20]. change (txt ")") with [x29].
    rewrite <- !app_assoc. cbn [app].
    destruct (Rl f' (x20 :: x2f :: x20 :: tr ++ x29 :: u)) as [_ Ql]; [lia|].
    rewrite (parse_alt unquote f' _ _ _ (Ql ltac:(simpl; repeat split; discriminate))).
    destruct (Rr f' (x29 :: u)) as [_ Qr]; [lia|]. rewrite Qr by (simpl; repeat split; discriminate). reflexivity.
  - destruct (pretty f (get l)) as [tl|] eqn:El; [|discriminate]. destruct (pretty f (get r)) as [tr|] eqn:Er; [|discriminate]. apply some_inj in H; subst t.
    destruct (IH _ _ _ El Ll) as (pl & Sl & Gl & Rl). destruct (IH _ _ _ Er Lr) as (pr & Sr & Gr & Rr).
    exists (PSeq pl pr). split.
    { eapply se_trans; [|apply se_get]. rewrite E. apply se_seq; eapply se_trans; eauto using se_get. }
    split; [split; discriminate|]. apply reads_false. intros [|f'] u Hl _; [lia|].
    change (txt "(") with [x28]. change (txt " ") with [x20]. change (txt ")") with [x29].
    rewrite <- !app_assoc. cbn [app].
    destruct (Rl f' (x20 :: tr ++ x29 :: u)) as [_ Ql]; [lia|].
    specialize (Ql ltac:(simpl; repeat split; discriminate)).
    destruct (Rr f' (x29 :: u)) as [_ Qr]; [lia|]. specialize (Qr ltac:(simpl; repeat split; discriminate)).
    destruct tr as [|c tr]; [destruct Gr|]. cbn [app] in *. unfold good_head in Gr.
    rewrite (parse_seq unquote f' _ _ _ _ Ql (proj1 Gr)), Qr. reflexivity.
  - destruct (pretty f (get q)) as [tq|] eqn:Eq; [|discriminate]. apply some_inj in H; subst t. destruct (IH _ _ _ Eq Lq) as (p' & S & G & R).
    exists (PStar p'). split.
    { eapply se_trans; [|apply se_get]. rewrite E. apply se_star. eapply se_trans; eauto using se_get. }
    split; [destruct tq; [destruct G|exact G]|]. apply reads_false. intros f' r Hl _. cbn [app]. rewrite <- app_assoc.
    change (txt "*" ++ r) with (x2a :: r). destruct (R f' (x2a :: r)) as [Q _]; [lia|]. rewrite Q; [reflexivity|reflexivity|]. split; [reflexivity|discriminate].
  - destruct (pretty f (get q)) as [tq|] eqn:Eq; [|discriminate]. apply some_inj in H; subst t. destruct (IH _ _ _ Eq Lq) as (p' & S & G & R).
    exists (PPlus p'). split.
    { eapply se_trans; [|apply se_get]. rewrite E. apply se_plus. eapply se_trans; eauto using se_get. }
    split; [destruct tq; [destruct G|exact G]|]. apply reads_false. intros f' r Hl _. cbn [app]. rewrite <- app_assoc.
    change (txt "+" ++ r) with (x2b :: r). destruct (R f' (x2b :: r)) as [Q _]; [lia|]. rewrite Q; [reflexivity|reflexivity|]. split; [reflexivity|discriminate].
  - destruct (pretty f (get q)) as [tq|] eqn:Eq; [|discriminate]. apply some_inj in H; subst t. destruct (IH _ _ _ Eq Lq) as (p' & S & G & R).
    exists (POpt p'). split.
    { eapply se_trans; [|apply se_get]. rewrite E. apply se_opt. eapply se_trans; eauto using se_get. }
    split; [destruct tq; [destruct G|exact G]|]. apply reads_false. intros f' r Hl _. cbn [app]. rewrite <- app_assoc.
    change (txt "?" ++ r) with (x3f :: r). destruct (R f' (x3f :: r)) as [Q _]; [lia|]. rewrite Q; [reflexivity|reflexivity|]. split; [reflexivity|discriminate].
  - destruct (pretty f (get q)) as [tq|] eqn:Eq; [|discriminate]. apply some_inj in H; subst t. destruct (IH _ _ _ Eq Lq) as (p' & S & G & R).
    exists (PNot p'). split.
    { eapply se_trans; [|apply se_get]. rewrite E. apply se_not. eapply se_trans; eauto using se_get. }
    split; [split; discriminate|]. intros [|f'] r Hl; [lia|]. split; [discriminate|]. intro A.
    change (txt "!") with [x21]. rewrite app_nil_r. cbn [app]. rewrite ?parse_not, ?parse_and. destruct (R f' r) as [_ Q]; [lia|]. rewrite Q by exact A. reflexivity.
  - destruct (pretty f (get q)) as [tq|] eqn:Eq; [|discriminate]. apply some_inj in H; subst t. destruct (IH _ _ _ Eq Lq) as (p' & S & G & R).
    exists (PAnd p'). split.
    { eapply se_trans; [|apply se_get]. rewrite E. apply se_and. eapply se_trans; eauto using se_get. }
    split; [split; discriminate|]. intros [|f'] r Hl; [lia|]. split; [discriminate|]. intro A.
    change (txt "&") with [x26]. rewrite app_nil_r. cbn [app]. rewrite ?parse_not, ?parse_and. destruct (R f' r) as [_ Q]; [lia|]. rewrite Q by exact A. reflexivity.
  - destruct (pretty f (get q)) as [tq|] eqn:Eq; [|discriminate]. apply some_inj in H; subst t. destruct (IH _ _ _ Eq Lq) as (p' & S & G & R).
    exists (PMemo p' 0). split.
    { eapply se_trans; [|apply se_get]. rewrite E. apply se_memo. eapply se_trans; eauto using se_get. }
    split; [split; discriminate|]. apply reads_false. intros [|f'] r Hl _; [lia|].
    change (txt "{{ ") with [x7b; x7b; x20]. change (txt " }}") with [x20; x7d; x7d].
    rewrite <- !app_assoc. cbn [app]. rewrite parse_memo. destruct (R f' (x20 :: x7d :: x7d :: r)) as [_ Q]; [lia|].
    rewrite <- ?app_assoc. cbn [app]. rewrite Q by (simpl; repeat split; discriminate). reflexivity.
  - destruct (pretty f (get q)) as [tq|] eqn:Eq; [|discriminate]. apply some_inj in H; subst t. destruct (IH _ _ _ Eq Lq) as (p' & S & G & R).
    exists (PSearch p'). split.
    { eapply se_trans; [|apply se_get]. rewrite E. apply se_search. eapply se_trans; eauto using se_get. }
    split; [split; discriminate|]. apply reads_false. intros [|f'] r Hl _; [lia|].
    change (txt "search(") with [x73; x65; x61; x72; x63; x68; x28]. change (txt ")") with [x29].
    rewrite <- !app_assoc. cbn [app]. rewrite parse_name by reflexivity. unfold names.
    rewrite span_search. cbn [strip]. change (byte_eqb x28 x28) with true. cbn iota beta. destruct (R f' (x29 :: r)) as [_ Q]; [lia|].
    rewrite Q by (simpl; repeat split; discriminate). reflexivity.
  - apply some_inj in H; subst t. exists (PEmptyOp op). split; [rewrite <- E; apply se_get|]. split; [split; discriminate|].
    apply reads_false. intros [|f'] r Hl _; [lia|].
    change (txt "empty(") with [x65; x6d; x70; x74; x79; x28]. change (txt ")") with [x29].
    rewrite <- !app_assoc. cbn [app]. rewrite parse_name by reflexivity. unfold names.
    rewrite span_empty. cbn [strip]. change (byte_eqb x28 x28) with true. cbn iota beta.
    change (strip (txt "empty") [x65; x6d; x70; x74; x79]) with (Some (@nil byte)). cbn iota beta.
    rewrite span_app; [|destruct op; reflexivity|split; [reflexivity|discriminate]]. rewrite undec_dec. reflexivity.
  - destruct (pretty f (get q)) as [tq|] eqn:Eq; [|discriminate]. apply some_inj in H; subst t. destruct (IH _ _ _ Eq Lq) as (p' & S & G & R).
    exists (PError m (Some p')). split.
    { eapply se_trans; [|apply se_get]. rewrite E. apply se_err. eapply se_trans; eauto using se_get. }
    split; [split; discriminate|]. apply reads_false. intros [|f'] r Hl _; [lia|].
    change (txt "err(") with [x65; x72; x72; x28]. change (txt ")") with [x29]. change (txt ", ") with [x2c; x20].
    rewrite <- !app_assoc. cbn [app]. rewrite parse_name by reflexivity. unfold names.
    rewrite span_err. cbn [strip]. change (byte_eqb x28 x28) with true. cbn iota beta.
    change (strip (txt "empty") [x65; x72; x72]) with (@None (list byte)). change (strip (txt "err") [x65; x72; x72]) with (Some (@nil byte)). cbn iota beta.
    unfold txt. rewrite till_app by exact Nm. change (byte_eqb x2c x2c) with true. change (byte_eqb x20 x20) with true. cbn iota beta. rewrite name_back.
    destruct tq as [|c tq]; [destruct G|]. destruct G as [_ G]. destruct (R f' (x29 :: r)) as [_ Q]; [lia|].
    assert (N : strip (list_byte_of_string "<invalid>") ((c :: tq) ++ x29 :: r) = None) by (destruct c; try reflexivity; congruence).
    rewrite N. rewrite Q by (simpl; repeat split; discriminate). reflexivity.
  - apply some_inj in H; subst t. exists (PError m None). split; [rewrite <- E; apply se_get|]. split; [split; discriminate|].
    apply reads_false. intros [|f'] r Hl _; [lia|].
    change (txt "err(") with [x65; x72; x72; x28]. change (txt ")") with [x29]. change (txt ", ") with [x2c; x20].
    rewrite <- !app_assoc. cbn [app]. rewrite parse_name by reflexivity. unfold names.
    rewrite span_err. cbn [strip]. change (byte_eqb x28 x28) with true. cbn iota beta.
    change (strip (txt "empty") [x65; x72; x72]) with (@None (list byte)). change (strip (txt "err") [x65; x72; x72]) with (Some (@nil byte)). cbn iota beta.
    unfold txt. rewrite till_app by exact Nm. change (byte_eqb x2c x2c) with true. change (byte_eqb x20 x20) with true. cbn iota beta. rewrite name_back. reflexivity.
  - destruct (pretty f (get q)) as [tq|] eqn:Eq; [|discriminate]. apply some_inj in H; subst t. destruct (IH _ _ _ Eq Lq) as (p' & S & G & R).
    exists (PCap p' 0). split.
    { eapply se_trans; [|apply se_get]. rewrite E. apply se_cap; [reflexivity|]. eapply se_trans; eauto using se_get. }
    split; [split; discriminate|]. apply reads_false. intros [|f'] r Hl _; [lia|].
    change (txt "{ ") with [x7b; x20]. change (txt " }") with [x20; x7d].
    rewrite <- !app_assoc. cbn [app]. rewrite parse_cap. destruct (R f' (x20 :: x7d :: r)) as [_ Q]; [lia|].
    rewrite Q by (simpl; repeat split; discriminate). reflexivity.
Qed.
End Read.

Lemma p_pretty : forall quote threshold order cap f g b b' p q t, quotes quote ->
  pretty quote threshold order f p = Some t -> pretty quote threshold order g q = Some t ->
  legible cap b p -> legible cap b' q -> same_eval cap p q.
Proof.
  intros quote threshold order cap f g b b' p q t (Q1 & Q2 & un & Q3) Hp Hq Lp Lq.
  destruct (pretty_reads quote threshold order un Q1 Q2 Q3 cap _ _ _ _ Hp Lp) as (p' & Sp & _ & Rp).
  destruct (pretty_reads quote threshold order un Q1 Q2 Q3 cap _ _ _ _ Hq Lq) as (q' & Sq & _ & Rq).
  destruct (Rp (max f g) [] ltac:(lia)) as [_ Ep]. destruct (Rq (max f g) [] ltac:(lia)) as [_ Eq].
  rewrite Ep in Eq by exact Logic.I. specialize (Eq Logic.I). injection Eq as <-.
  eapply se_trans; [apply se_sym, Sp|exact Sq].
Qed.

Lemma se_peg : forall p q, same_eval false p q -> forall s CS check E i w r w', peg s (CS:=CS) check E p i w r w' -> peg s check E q i w r w'.
Proof.
  intros p q H s CS check E i w r w' P. apply eval_complete in P. destruct P as (n & x & P). eapply (eval_sound _ _ _ n).
  specialize (H s CS check n E i w). rewrite P in H. destruct (eval s check n E q i w) as [[[[|j ts|j]|] v] y], r; cbn [rmap hide] in H; try discriminate; symmetry; exact H.
Qed.
Lemma se_anon : forall p q, same_eval true p q -> forall s CS check E i w r w', peg s (CS:=CS) check E p i w r w' ->
  exists r', peg s check E q i w r' w' /\ anonymous r' = anonymous r.
Proof.
  intros p q H s CS check E i w r w' P. apply eval_complete in P. destruct P as (n & x & P).
  specialize (H s CS check n E i w). rewrite P in H. destruct (eval s check n E q i w) as [[o v] y] eqn:Eq.
  destruct o as [r'|]; [|destruct r; discriminate]. exists r'.
  assert (A : anonymous r' = anonymous r /\ v = w').
  { destruct r, r'; cbn [rmap hide] in H; try discriminate; injection H; intros; subst; split; try reflexivity. cbn [anonymous]. congruence. }
  destruct A as [A ->]. split; [|exact A]. eapply (eval_sound _ _ _ n). exact Eq.
Qed.

Lemma get_size : forall p, psize (get p) <= psize p.
Proof. intro p. apply get_f_size. Qed.

Lemma pretty_ends : forall quote threshold order cap f p b, psize p <= f -> legible cap b p ->
  exists t, pretty quote threshold order f p = Some t.
Proof.
  intros quote threshold order cap. induction f as [|f IH]; intros p b H L; [pose proof (psize_pos p); lia|].
  cbn [pretty]. pose proof (get_size p) as G.
  inversion L as [p0 s E|p0 c E|p0 E|p0 E|p0 x E Nx Ix|p0 x q bq E Lq|p0 l r b1 b2 E Ll Lr|p0 l r b1 b2 E Ll Lr|p0 q E Lq|p0 q E Lq|p0 q E Lq|p0 q bq E Lq|p0 q bq E Lq|p0 q id bq E Lq|p0 q bq E Lq|p0 op E|p0 m q bq E Nm Lq|p0 m E Nm|p0 q id bq E Hcap Lq]; subst; rewrite E in *; cbn [psize] in G;
  try (eexists; reflexivity).
  - apply (IH (get q) _ ltac:(pose proof (get_size q); lia) Lq).
  - destruct (IH (get l) _ ltac:(pose proof (get_size l); lia) Ll) as [t1 ->].
    destruct (IH (get r) _ ltac:(pose proof (get_size r); lia) Lr) as [t2 ->]. eexists. reflexivity.
  - destruct (IH (get l) _ ltac:(pose proof (get_size l); lia) Ll) as [t1 ->].
    destruct (IH (get r) _ ltac:(pose proof (get_size r); lia) Lr) as [t2 ->]. eexists. reflexivity.
  - destruct (IH (get q) _ ltac:(pose proof (get_size q); lia) Lq) as [t1 ->]. eexists. reflexivity.
  - destruct (IH (get q) _ ltac:(pose proof (get_size q); lia) Lq) as [t1 ->]. eexists. reflexivity.
  - destruct (IH (get q) _ ltac:(pose proof (get_size q); lia) Lq) as [t1 ->]. eexists. reflexivity.
  - destruct (IH (get q) _ ltac:(pose proof (get_size q); lia) Lq) as [t1 ->]. eexists. reflexivity.
  - destruct (IH (get q) _ ltac:(pose proof (get_size q); lia) Lq) as [t1 ->]. eexists. reflexivity.
  - destruct (IH (get q) _ ltac:(pose proof (get_size q); lia) Lq) as [t1 ->]. eexists. reflexivity.
  - destruct (IH (get q) _ ltac:(pose proof (get_size q); lia) Lq) as [t1 ->]. eexists. reflexivity.
  - destruct (IH (get q) _ ltac:(pose proof (get_size q); lia) Lq) as [t1 ->]. eexists. reflexivity.
  - destruct (IH (get q) _ ltac:(pose proof (get_size q); lia) Lq) as [t1 ->]. eexists. reflexivity.
Qed.

(* ---------- a simple way to quote, to show that [quotes] can be met ---------- *)

(** quotation marks and backslashes get a backslash, as strconv.Quote does for printable texts *)
Definition bs_quote (s : list byte) : list byte :=
  x22 :: flat_map (fun b => if byte_eqb b x22 || byte_eqb b x5c then [x5c; b] else [b]) s ++ [x22].

Fixpoint bs_read (t : list byte) : option (list byte * list byte) :=
  match t with
  | [] => None
  | b :: t =>
      if byte_eqb b x22 then Some ([], t)
      else if byte_eqb b x5c then
        match t with
        | c :: t => match bs_read t with Some (s, r) => Some (c :: s, r) | None => None end
        | [] => None
        end
      else match bs_read t with Some (s, r) => Some (b :: s, r) | None => None end
  end.

Lemma bs_quotes : quotes bs_quote.
Proof.
  split; [reflexivity|]. split; [intro s; eexists; reflexivity|].
  exists (fun t => match t with _ :: t => bs_read t | [] => None end).
  intros s t. unfold bs_quote. cbn [app]. rewrite <- app_assoc. cbn [app].
  induction s as [|b s IH]; [reflexivity|]. cbn [flat_map].
  destruct (byte_eqb b x22) eqn:E1; [|destruct (byte_eqb b x5c) eqn:E2]; cbn [orb].
  - cbn [app bs_read]. change (byte_eqb x5c x22) with false. change (byte_eqb x5c x5c) with true. cbn iota. rewrite IH. reflexivity.
  - cbn [app bs_read]. change (byte_eqb x5c x22) with false. change (byte_eqb x5c x5c) with true. cbn iota. rewrite IH. reflexivity.
  - cbn [app bs_read]. rewrite E1, E2, IH. reflexivity.
Qed.
