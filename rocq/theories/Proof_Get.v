(** Get preserves the meaning of patterns, including the amount of fuel and the examined range. *)
From Verif Require Import Base Model_Charset Proof_Charset Model_Isa Model_Capture Model_VM Model_Pattern Spec_Peg Proof_Eval.
Local Open Scope nat_scope.

Section Get.
Variable s : list byte.
Variable CS : Type.
Variable check : nat -> CS -> list byte -> list byte -> nat -> Z -> Z -> CS * option nat.
Notation eval := (eval s check).
Notation res := (res CS).

Lemma eorelse_ext : forall (a : res) f g, (forall w, f w = g w) -> eorelse a f = eorelse a g.
Proof. intros [[[[]|] w] x] f g H; simpl; rewrite ?H; reflexivity. Qed.
Lemma ebind_ext : forall (a : res) f g, (forall j w, f j w = g j w) -> ebind a f = ebind a g.
Proof. intros [[[[]|] w] x] f g H; simpl; rewrite ?H; reflexivity. Qed.

(** matching one byte satisfying [f] *)
Definition byte_eval (f : byte -> bool) (i : nat) (w : world CS) : res :=
  match nth_error s i with
  | Some b => (Some (if f b then RSucc (S i) [] else RFail), w, S i)
  | None => (Some RFail, w, S i)
  end.

Lemma lit1_eval : forall a i w, lit_eval s [a] i w = byte_eval (byte_eqb a) i w.
Proof.
  intros. unfold byte_eval. simpl. destruct (nth_error s i); [|reflexivity].
  destruct (byte_eqb a b); simpl; rewrite ?Nat.max_0_r; reflexivity.
Qed.
Lemma class_eval_byte : forall c i (w : world CS), class_eval s c i w = byte_eval (cs_has c) i w.
Proof. reflexivity. Qed.
Lemma byte_eval_ext : forall f g i w, (forall b, f b = g b) -> byte_eval f i w = byte_eval g i w.
Proof. intros. unfold byte_eval. destruct (nth_error s i); rewrite ?H; reflexivity. Qed.

Lemma byte_alt : forall f g i w, eorelse (byte_eval f i w) (fun w => byte_eval g i w) = byte_eval (fun b => f b || g b) i w.
Proof.
  intros. unfold byte_eval. destruct (nth_error s i) as [b|]; simpl.
  - destruct (f b); simpl; [reflexivity|]. rewrite Nat.max_id. reflexivity.
  - rewrite Nat.max_id. reflexivity.
Qed.
Lemma byte_not : forall f g (h : nat -> world CS -> res) i w,
  (forall j w, exists y, y <= S j /\ h j w = (fst (fst (byte_eval g j w)), w, y)) ->
  ebind (enot CS i (byte_eval f i w)) h = byte_eval (fun b => negb (f b) && g b) i w.
Proof.
  intros f g h i w H. unfold byte_eval in *. unfold enot. destruct (nth_error s i) as [b|] eqn:E; cbn -[Nat.max].
  - destruct (f b); cbn -[Nat.max]; [reflexivity|]. destruct (H i w) as (y & Hy & ->). rewrite E. cbn -[Nat.max].
    destruct (g b); cbn -[Nat.max]; rewrite Nat.max_l by lia; reflexivity.
  - destruct (H i w) as (y & Hy & ->). rewrite E. cbn -[Nat.max]. rewrite Nat.max_l by lia. reflexivity.
Qed.

(** patterns that match one byte *)
Definition single (p : pattern) (f : byte -> bool) : Prop :=
  forall n E i w, eval n E p i w = byte_eval f i w.
Lemma single_lit : forall a, single (PLit [a]) (byte_eqb a).
Proof. intros a n E i w. rewrite eval_lit. apply lit1_eval. Qed.
Lemma single_class : forall c, single (PClass c) (cs_has c).
Proof. intros c n E i w. apply eval_class. Qed.
(** the same, except that the examined range may be smaller *)
Definition almost (p : pattern) (f : byte -> bool) : Prop :=
  forall n E i w, exists y, y <= S i /\ eval n E p i w = (fst (fst (byte_eval f i w)), w, y).
Lemma single_almost : forall p f, single p f -> almost p f.
Proof.
  intros p f H n E i w. rewrite H. exists (S i). split; [lia|]. unfold byte_eval. destruct (nth_error s i); reflexivity.
Qed.
Lemma almost_dot : almost (PDot x01) (fun _ => true).
Proof.
  intros n E i w. exists 0. split; [lia|]. rewrite eval_dot. unfold byte_eval. change (N.to_nat (bN x01)) with 1. rewrite Nat.add_1_r.
  destruct (nth_error s i) eqn:En.
  - assert (i < List.length s) by (apply nth_error_Some; congruence).
    destruct (Nat.leb_spec (S i) (List.length s)); [reflexivity|lia].
  - apply nth_error_None in En. destruct (Nat.leb_spec (S i) (List.length s)); [lia|reflexivity].
Qed.

Lemma has_single : forall a b, cs_has (cs_new [a]) b = byte_eqb a b.
Proof.
  intros. rewrite cs_new_has. simpl. rewrite orb_false_r.
  destruct (byte_eqb a b) eqn:E.
  - apply byte_eqb_eq in E. subst. apply byte_eqb_refl.
  - apply byte_eqb_neq. apply byte_eqb_neq in E. congruence.
Qed.

Lemma combine_ok : forall l r set, combine l r = Some set ->
  exists f g, single l f /\ single r g /\ (forall b, cs_has set b = f b || g b).
Proof.
  intros l r set H. unfold combine in H.
  destruct l; try discriminate; destruct r; try discriminate;
  repeat match goal with
  | H : match ?x with [] => _ | _ :: _ => _ end = _ |- _ => destruct x; try discriminate
  end; injection H; intros; subst set.
  - do 2 eexists. split; [apply single_class|]. split; [apply single_class|]. intro x. rewrite cs_add_has. apply orb_comm.
  - do 2 eexists. split; [apply single_class|]. split; [apply single_lit|]. intro x.
    rewrite cs_add_has, has_single. reflexivity.
  - do 2 eexists. split; [apply single_lit|]. split; [apply single_class|]. intro x.
    rewrite cs_add_has, has_single. apply orb_comm.
  - do 2 eexists. split; [apply single_lit|]. split; [apply single_lit|]. intro x.
    rewrite cs_new_has. simpl. rewrite orb_false_r. rewrite <- (has_single b x), <- (has_single b0 x), !cs_new_has. simpl. rewrite !orb_false_r. reflexivity.
Qed.

Lemma combine_eval : forall l r set n E i w, combine l r = Some set ->
  eval n E (PClass set) i w = eorelse (eval n E l i w) (fun w => eval n E r i w).
Proof.
  intros l r set n E i w H. destruct (combine_ok _ _ _ H) as (f & g & Hl & Hr & Hs).
  rewrite (single_class set), (Hl n E i w).
  rewrite (eorelse_ext _ _ (fun w => byte_eval g i w)) by (intros; apply Hr).
  rewrite byte_alt. apply byte_eval_ext. exact Hs.
Qed.

Lemma star_not_fail : forall n E q i w w' x, eval n E (PStar q) i w <> (Some RFail, w', x).
Proof.
  intros n E q i w w' x. rewrite eval_star.
  destruct (ebind _ _) as [[[[]|] w1] x1]; simpl; congruence.
Qed.

Lemma get_not_seq_ok : forall p pl pr nn gnn r n E i w,
  p = PSeq pl pr ->
  eval n E pl i w = eval n E (PNot nn) i w ->
  (forall j w, eval n E pr j w = eval n E r j w) ->
  (forall j w, eval n E gnn j w = eval n E nn j w) ->
  eval n E (get_not_seq p gnn r) i w = eval n E p i w.
Proof.
  intros p pl pr nn gnn r n E i w Hp Hl Hr Hn. unfold get_not_seq.
  assert (Hev : eval n E p i w = ebind (enot CS i (eval n E gnn i w)) (fun j w => eval n E r j w)).
  { subst p. rewrite eval_seq, Hl, eval_not, <- Hn. apply ebind_ext. intros. apply Hr. }
  assert (Key : forall set c f g, single gnn f -> almost r g -> (forall b, cs_has set b = f b) ->
            (forall b, cs_has c b = negb (f b) && g b) ->
            eval n E (PClass c) i w = eval n E p i w).
  { intros set c f g Hf Hg Hsf Hc. rewrite Hev, (single_class c), (Hf n E i w).
    rewrite (byte_not f g) by (intros; apply Hg). apply byte_eval_ext. exact Hc. }
  assert (Hset : (match gnn with PLit [a] => Some (cs_new [a]) | PClass s0 => Some s0 | _ => None end = None) \/
     exists set f, match gnn with PLit [a] => Some (cs_new [a]) | PClass s0 => Some s0 | _ => None end = Some set /\
              single gnn f /\ (forall b, cs_has set b = f b)).
  { destruct gnn; auto.
    - right. do 2 eexists. split; [reflexivity|]. split; [apply single_class|reflexivity].
    - destruct str as [|a [|]]; auto. right. do 2 eexists. split; [reflexivity|].
      split; [apply single_lit|]. intro. apply has_single. }
  destruct Hset as [->|(set & f & -> & Hf & Hsf)]; [reflexivity|].
  destruct r; try reflexivity.
  - apply (Key set _ f (cs_has s0)); auto; [apply single_almost, single_class|]. intro b. rewrite cs_sub_has, Hsf. apply andb_comm.
  - destruct str as [|a [|]]; try reflexivity.
    apply (Key set _ f (byte_eqb a)); auto; [apply single_almost, single_lit|]. intro b. rewrite cs_sub_has, has_single, Hsf. apply andb_comm.
  - destruct n0; try reflexivity.
    apply (Key set _ f (fun _ => true)); auto; [apply almost_dot|]. intro b. rewrite cs_compl_has, Hsf, andb_true_r. reflexivity.
Qed.

Lemma get_f_ok : forall fuel p n E i w, eval n E (get_f fuel p) i w = eval n E p i w.
Proof.
  induction fuel as [|fuel IH]; intros p n E i w; [reflexivity|].
  destruct p; try reflexivity.
  - (* Alt *)
    assert (HA : eval n E (PAlt p1 p2) i w = eorelse (eval n E (get_f fuel p1) i w) (fun w => eval n E (get_f fuel p2) i w)).
    { rewrite eval_alt, IH. apply eorelse_ext. intro. symmetry. apply IH. }
    assert (HO : get_f fuel p2 = PEmpty -> eval n E (get_f fuel (POpt (get_f fuel p1))) i w = eval n E (PAlt p1 p2) i w).
    { intro H. rewrite IH, eval_opt, eval_alt, HA, H. reflexivity. }
    assert (HC : forall set, combine (get_f fuel p1) (get_f fuel p2) = Some set ->
                 eval n E (PClass set) i w = eval n E (PAlt p1 p2) i w).
    { intros set H. rewrite HA. apply combine_eval. exact H. }
    cbn [get_f].
    set (l := get_f fuel p1) in *. set (r := get_f fuel p2) in *.
    destruct (combine l r) as [set|] eqn:Ec.
    + destruct l; try discriminate Ec; destruct r; try discriminate Ec; first [apply HC; reflexivity | exfalso; simpl in Ec; repeat match type of Ec with context [match ?x with _ => _ end] => destruct x end; discriminate Ec].
    + destruct l; try (destruct r; first [reflexivity | apply HO; reflexivity]).
      rewrite HA, !eval_empty. reflexivity.
  - (* Seq *)
    assert (HA : eval n E (PSeq p1 p2) i w = ebind (eval n E (get_f fuel p1) i w) (fun j w => eval n E (get_f fuel p2) j w)).
    { rewrite eval_seq, IH. apply ebind_ext. intros. symmetry. apply IH. }
    assert (HN : forall nn, get_f fuel p1 = PNot nn ->
       eval n E (get_not_seq (PSeq p1 p2) (get_f fuel nn) (get_f fuel p2)) i w = eval n E (PSeq p1 p2) i w).
    { intros nn H. eapply get_not_seq_ok; [reflexivity| | |].
      - rewrite <- IH, H. reflexivity.
      - intros. symmetry. apply IH.
      - intros. apply IH. }
    assert (HR : get_f fuel p2 = PEmpty -> eval n E (get_f fuel p1) i w = eval n E (PSeq p1 p2) i w).
    { intro H. rewrite HA, H.
      rewrite (ebind_ext _ _ (fun j w => (Some (RSucc j []), w, 0))) by (intros; apply eval_empty).
      destruct (eval n E (get_f fuel p1) i w) as [[[[]|] w1] x1]; simpl; rewrite ?app_nil_r, ?Nat.max_0_r; reflexivity. }
    assert (HL : get_f fuel p1 = PEmpty -> eval n E (get_f fuel p2) i w = eval n E (PSeq p1 p2) i w).
    { intro H. rewrite HA, H, eval_empty. simpl.
      destruct (eval n E (get_f fuel p2) i w) as [[[[]|] w1] x1]; reflexivity. }
    cbn [get_f].
    set (l := get_f fuel p1) in *. set (r := get_f fuel p2) in *.
    assert (HX : r <> PEmpty -> eval n E match l with PNot nn => get_not_seq (PSeq p1 p2) (get_f fuel nn) r
                    | PEmpty => r | _ => PSeq p1 p2 end i w = eval n E (PSeq p1 p2) i w).
    { intros _. destruct l; first [reflexivity | apply HN; reflexivity | apply HL; reflexivity]. }
    destruct r; first [ apply HX; discriminate | apply HR; reflexivity ].
  - (* Opt *)
    cbn [get_f]. destruct (get_f fuel p) eqn:Eg; try reflexivity.
    rewrite eval_opt, eval_alt, <- (IH p), Eg.
    pose proof (star_not_fail n E p0 i w) as H.
    destruct (eval n E (PStar p0) i w) as [[[[]|] w1] x1]; try reflexivity. elim (H w1 x1). reflexivity.
  - (* NonTerm *)
    destruct inl as [q|]; [|reflexivity]. cbn [get_f]. rewrite eval_inl. reflexivity.
Qed.

Lemma get_ok : forall p n E i w, eval n E (get p) i w = eval n E p i w.
Proof. intros. apply get_f_ok. Qed.

Lemma get_peg : forall p E i w r w', peg s check E (get p) i w r w' <-> peg s check E p i w r w'.
Proof.
  intros. split; intro H; apply eval_complete in H; destruct H as (n & x & H); eapply eval_sound.
  - rewrite <- get_ok. exact H.
  - rewrite get_ok. exact H.
Qed.
End Get.

(** enough fuel: the size of the pattern *)
Lemma psize_pos : forall p, 1 <= psize p.
Proof. destruct p; simpl; try lia; destruct inl || destruct recover; lia. Qed.

Lemma get_f_size : forall fuel p, psize (get_f fuel p) <= psize p.
Proof.
  induction fuel as [|fuel IH]; intros p; [reflexivity|].
  destruct p; try reflexivity.
  - cbn [get_f]. pose proof (IH p1) as H1. pose proof (IH p2) as H2.
    pose proof (psize_pos p1). pose proof (psize_pos p2).
    pose proof (IH (POpt (get_f fuel p1))) as H3. cbn [psize] in H3.
    assert (HX : forall o : option cset, psize match o with Some set => PClass set | None => PAlt p1 p2 end <= psize (PAlt p1 p2)).
    { intros [|]; cbn [psize]; lia. }
    destruct (get_f fuel p1) eqn:E1; try (destruct (get_f fuel p2) eqn:E2; first [apply HX | cbn [psize] in *; lia]);
    cbn [psize]; lia.
  - cbn [get_f]. pose proof (IH p1) as H1. pose proof (IH p2) as H2.
    pose proof (psize_pos p1). pose proof (psize_pos p2).
    assert (HX : forall a b, psize (get_not_seq (PSeq p1 p2) a b) <= psize (PSeq p1 p2)).
    { intros a b. unfold get_not_seq. destruct (match a with PLit [a] => _ | PClass s0 => _ | _ => _ end); [|reflexivity].
      destruct b; try reflexivity; try (cbn [psize]; lia).
      - destruct str as [|? [|]]; cbn [psize]; lia.
      - destruct n; try reflexivity; cbn [psize]; lia. }
    assert (HY : psize match get_f fuel p1 with
      | PNot nn => get_not_seq (PSeq p1 p2) (get_f fuel nn) (get_f fuel p2)
      | PEmpty => get_f fuel p2 | _ => PSeq p1 p2 end <= psize (PSeq p1 p2)).
    { destruct (get_f fuel p1); first [apply HX | reflexivity | cbn [psize]; lia]. }
    destruct (get_f fuel p2); first [exact HY | cbn [psize] in *; lia].
  - cbn [get_f]. pose proof (IH p) as H1. destruct (get_f fuel p); try reflexivity. cbn [psize] in *; lia.
  - destruct inl; cbn [get_f psize]; lia.
Qed.

(** the fuel used by [get] is enough: any larger amount gives the same result *)
Lemma get_fuel_enough : forall f g p, psize p <= f -> psize p <= g -> get_f f p = get_f g p.
Proof.
  induction f as [|f IH]; intros g p Hf Hg; [pose proof (psize_pos p); lia|].
  destruct g as [|g]; [pose proof (psize_pos p); lia|].
  destruct p; try reflexivity; cbn [psize] in Hf, Hg; cbn [get_f].
  - pose proof (psize_pos p1). pose proof (psize_pos p2).
    rewrite <- (IH g p1) by lia. rewrite <- (IH g p2) by lia.
    pose proof (get_f_size f p1) as H1.
    destruct (get_f f p1) eqn:E1; try reflexivity; destruct (get_f f p2) eqn:E2; try reflexivity;
    apply IH; cbn [psize] in *; lia.
  - pose proof (psize_pos p1). pose proof (psize_pos p2).
    rewrite <- (IH g p1) by lia. rewrite <- (IH g p2) by lia.
    pose proof (get_f_size f p1) as H1.
    destruct (get_f f p1) eqn:E1; try reflexivity.
    rewrite <- (IH g p) by (cbn [psize] in H1; lia). reflexivity.
  - rewrite <- (IH g p) by lia. reflexivity.
Qed.
