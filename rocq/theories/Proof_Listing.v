(** The listing of a program determines the program. *)
From Coq Require Import String Decimal DecimalString DecimalN DecimalZ DecimalFacts.
From Verif Require Import Base Model_Charset Proof_Charset Model_Isa Model_Code Model_String Spec_String Proof_String
  Model_Listing Spec_Listing.
Local Open Scope list_scope.
Local Open Scope nat_scope.

(* ---------- texts that end at a separator ---------- *)

Lemma until : forall (P : byte -> Prop) a b x y s t, (forall c, In c a -> P c) -> (forall c, In c b -> P c) -> ~ P x -> ~ P y ->
  a ++ x :: s = b ++ y :: t -> a = b /\ x = y /\ s = t.
Proof.
  intros P a. induction a as [|c a IH]; intros b x y s t Ha Hb Hx Hy E; destruct b as [|d b]; cbn [app] in E; injection E as E1 E2.
  - auto.
  - subst. destruct Hx. apply Hb. left. reflexivity.
  - subst. destruct Hy. apply Ha. left. reflexivity.
  - subst. destruct (IH b x y s t) as (-> & -> & ->); auto; intros; [apply Ha|apply Hb]; right; assumption.
Qed.

Lemma lit_app_inj : forall s t, lit s = lit t -> s = t.
Proof. intros s t H. rewrite <- (string_of_list_byte_of_string s), <- (string_of_list_byte_of_string t). unfold lit in H. rewrite H. reflexivity. Qed.

(* ---------- numbers ---------- *)

Definition numeral (c : byte) : Prop := In c (lit "-0123456789").

Lemma uint_numeral : forall d c, In c (lit (NilEmpty.string_of_uint d)) -> numeral c.
Proof.
  induction d; intros c H; cbn in H; [contradiction|..];
    (destruct H as [<-|H]; [unfold numeral; cbn; tauto|apply IHd, H]).
Qed.

Lemma zero_numeral : forall d c, In c (lit (NilZero.string_of_uint d)) -> numeral c.
Proof.
  intros d c H. unfold NilZero.string_of_uint in H. destruct d; try (eapply uint_numeral; exact H).
  cbn in H. destruct H as [<-|[]]. unfold numeral. cbn. tauto.
Qed.

Lemma dec_n_numeral : forall n c, In c (dec_n n) -> numeral c.
Proof. intros n c. apply zero_numeral. Qed.

Lemma dec_z_numeral : forall n c, In c (dec_z n) -> numeral c.
Proof.
  intros n c H. unfold dec_z, NilZero.string_of_int in H. destruct (Z.to_int n) as [d|d]; [eapply zero_numeral; exact H|].
  change (In c (x2d :: lit (NilZero.string_of_uint d))) in H.
  destruct H as [<-|H]; [unfold numeral; cbn; tauto|eapply zero_numeral; exact H].
Qed.

Lemma to_uint_nonnil : forall n, N.to_uint n <> Nil.
Proof. intros [|p]; cbn; [discriminate|apply DecimalPos.Unsigned.to_uint_nonnil]. Qed.

Lemma dec_n_inj : forall a b, dec_n a = dec_n b -> a = b.
Proof.
  intros a b H. apply lit_app_inj in H. apply DecimalN.Unsigned.to_uint_inj.
  pose proof (NilZero.usu _ (to_uint_nonnil a)) as A. rewrite H, (NilZero.usu _ (to_uint_nonnil b)) in A. congruence.
Qed.

Lemma to_int_nonnil : forall z, Z.to_int z <> Pos Nil /\ Z.to_int z <> Neg Nil.
Proof.
  intros [|p|p]; cbn; split; try discriminate; intro H; injection H as H; exact (DecimalPos.Unsigned.to_uint_nonnil _ H).
Qed.

Lemma dec_z_inj : forall a b, dec_z a = dec_z b -> a = b.
Proof.
  intros a b H. apply lit_app_inj in H. apply DecimalZ.to_int_inj.
  destruct (to_int_nonnil a) as [A1 A2], (to_int_nonnil b) as [B1 B2].
  pose proof (NilZero.isi _ A1 A2) as A. rewrite H, (NilZero.isi _ B1 B2) in A. congruence.
Qed.

Ltac sep := unfold numeral; cbn; intuition discriminate.

Lemma dec_n_until : forall a b x y s t, ~ numeral x -> ~ numeral y -> dec_n a ++ x :: s = dec_n b ++ y :: t -> a = b /\ x = y /\ s = t.
Proof.
  intros a b x y s t Hx Hy E. destruct (until numeral _ _ _ _ _ _ (dec_n_numeral a) (dec_n_numeral b) Hx Hy E) as (E1 & E2 & E3).
  split; [apply dec_n_inj, E1|auto].
Qed.
Lemma dec_z_until : forall a b x y s t, ~ numeral x -> ~ numeral y -> dec_z a ++ x :: s = dec_z b ++ y :: t -> a = b /\ x = y /\ s = t.
Proof.
  intros a b x y s t Hx Hy E. destruct (until numeral _ _ _ _ _ _ (dec_z_numeral a) (dec_z_numeral b) Hx Hy E) as (E1 & E2 & E3).
  split; [apply dec_z_inj, E1|auto].
Qed.
Lemma dec_b_until : forall a b x y s t, ~ numeral x -> ~ numeral y -> dec_b a ++ x :: s = dec_b b ++ y :: t -> a = b /\ x = y /\ s = t.
Proof.
  intros a b x y s t Hx Hy E. destruct (dec_n_until _ _ _ _ _ _ Hx Hy E) as (E1 & E2 & E3).
  split; [rewrite <- (N2b_bN a), <- (N2b_bN b), E1; reflexivity|auto].
Qed.
Lemma lbl_until : forall a b x y s t, ~ numeral x -> ~ numeral y -> lbl_string a ++ x :: s = lbl_string b ++ y :: t -> a = b /\ x = y /\ s = t.
Proof.
  intros a b x y s t Hx Hy E. unfold lbl_string in E. rewrite <- !app_assoc in E. apply app_inv_head in E.
  destruct (dec_n_until _ _ _ _ _ _ Hx Hy E) as (E1 & E2 & E3). split; [lia|auto].
Qed.

(* ---------- characters and sets ---------- *)

Definition read_latin (s : list byte) : option (N * list byte) :=
  match s with
  | _ :: h :: m :: _ :: t => if (192 <=? bN h)%N then Some ((bN h - 192) * 64 + (bN m - 128), t)%N else read_rune s
  | _ => read_rune s
  end.

Lemma latin_read : forall b t, read_latin (quote_latin b ++ t) = Some (bN b, t).
Proof.
  intros b t. destruct b; try reflexivity; destruct t; reflexivity.
Qed.

Lemma latin_app : forall a b s t, quote_latin a ++ s = quote_latin b ++ t -> a = b /\ s = t.
Proof.
  intros a b s t E. pose proof (latin_read a s) as A. rewrite E, latin_read in A.
  assert (Q : bN b = bN a /\ t = s) by (split; congruence). destruct Q as [Q ->].
  split; [|reflexivity]. rewrite <- (N2b_bN a), <- (N2b_bN b), Q. reflexivity.
Qed.

Lemma set_app : forall c d s t, cs_wf c -> cs_wf d -> cs_string c ++ s = cs_string d ++ t -> c = d /\ s = t.
Proof.
  intros c d s t Wc Wd E. destruct (string_prefix c) as (l & R & _). destruct (string_prefix d) as (l' & R' & _).
  pose proof (R s) as A. rewrite E, R' in A. assert (Q : t = s) by congruence. subst t.
  apply app_inv_tail in E. split; [apply p_string_inj; auto|reflexivity].
Qed.

(* ---------- instructions ---------- *)

Section Listing.
Variable quote : string -> list byte.
Variable show : nat -> list byte.
Hypothesis Q : lines quote.

(** the fixed beginning of the text of an instruction, with the end of the line if there is nothing else *)
Definition head (i : insn) : list byte :=
  match i with
  | ILabel _ => lit "L"
  | IChar _ => lit "Char "
  | IJump _ => lit "Jump "
  | IChoice _ => lit "Choice "
  | ICall _ => lit "Call "
  | ICommit _ => lit "Commit "
  | IReturn => lit "Return" ++ [x0a]
  | IFail => lit "Fail" ++ [x0a]
  | ISet _ => lit "Set "
  | IAny _ => lit "Any "
  | IPartialCommit _ => lit "PartialCommit "
  | ISpan _ => lit "Span "
  | IBackCommit _ => lit "BackCommit "
  | IFailTwice => lit "FailTwice" ++ [x0a]
  | IEmpty _ => lit "Empty "
  | ITestChar _ _ => lit "TestChar "
  | ITestCharNoChoice _ _ => lit "TestCharNoChoice "
  | ITestSet _ _ => lit "TestSet "
  | ITestSetNoChoice _ _ => lit "TestSetNoChoice "
  | ITestAny _ _ => lit "TestAny "
  | IEnd _ => lit "End "
  | INop => lit "Nop" ++ [x0a]
  | IMemoOpen _ _ => lit "MemoOpen "
  | IMemoClose => lit "MemoClose" ++ [x0a]
  | IMemoTreeOpen _ _ => lit "MemoTreeOpen "
  | IMemoTreeInsert => lit "MemoTreeInsert" ++ [x0a]
  | IMemoTree => lit "MemoTree" ++ [x0a]
  | IMemoTreeClose _ => lit "MemoTreeClose "
  | ICaptureBegin _ => lit "Capture begin "
  | ICaptureLate _ _ => lit "Capture late "
  | ICaptureEnd => lit "Capture end" ++ [x0a]
  | ICaptureFull _ _ => lit "Capture full "
  | ICheckBegin _ _ => lit "CheckBegin" ++ [x0a]
  | ICheckEnd _ => lit "CheckEnd "
  | IError _ => lit "Error "
  | IOpenCall _ => lit "OpenCall "
  end.

Lemma head_spec : forall i t, exists u, insn_string quote show i ++ x0a :: t = head i ++ u.
Proof.
  intros i t. destruct i; cbn [insn_string head]; unfold lbl_string; rewrite <- ?app_assoc;
    first [exists t; reflexivity | eexists; apply (f_equal (app _)); reflexivity].
Qed.

(** two texts that differ at a place both have *)
Fixpoint clash (a b : list byte) : bool :=
  match a, b with
  | x :: a, y :: b => if byte_eqb x y then clash a b else true
  | _, _ => false
  end.

Lemma clash_app : forall a b s t, clash a b = true -> a ++ s <> b ++ t.
Proof.
  induction a as [|x a IH]; intros [|y b] s t C E; cbn in C; try discriminate.
  cbn [app] in E. injection E as E1 E2. subst y.
  assert (R : byte_eqb x x = true) by (destruct x; reflexivity). rewrite R in C. exact (IH _ _ _ C E2).
Qed.

Ltac field :=
  match goal with
  | E : x0a :: _ = x0a :: _ |- _ => apply (f_equal (@List.tl byte)) in E; cbn [List.tl] in E; subst; split; reflexivity
  | E : ?s = ?t |- _ /\ ?s = ?t => subst; split; reflexivity
  | E : lbl_string _ ++ _ = lbl_string _ ++ _ |- _ => apply lbl_until in E; [|sep|sep]; destruct E as (-> & _ & E)
  | E : dec_z _ ++ _ = dec_z _ ++ _ |- _ => apply dec_z_until in E; [|sep|sep]; destruct E as (-> & _ & E)
  | E : dec_b _ ++ _ = dec_b _ ++ _ |- _ => apply dec_b_until in E; [|sep|sep]; destruct E as (-> & _ & E)
  | E : quote_latin _ ++ _ = quote_latin _ ++ _ |- _ => apply latin_app in E; destruct E as (-> & E)
  | E : cs_string _ ++ _ = cs_string _ ++ _ |- _ => apply set_app in E; [|assumption|assumption]; destruct E as (-> & E)
  | E : ?x :: _ = ?x :: _ |- _ => apply (f_equal (@List.tl byte)) in E; cbn [List.tl] in E
  end.

Lemma empty_until : forall a b s t, In a [x01; x02; x04; x08; x10; x20] -> In b [x01; x02; x04; x08; x10; x20] ->
  empty_string a ++ x0a :: s = empty_string b ++ x0a :: t -> a = b /\ s = t.
Proof.
  intros a b s t Ha Hb E.
  assert (P : forall c x, In c [x01; x02; x04; x08; x10; x20] -> In x (empty_string c) -> x <> x0a).
  { intros c x Hc Hx. repeat (destruct Hc as [<-|Hc]); [..|contradiction];
      (vm_compute in Hx; intros ->; repeat (destruct Hx as [Hx|Hx]; [discriminate Hx|]); contradiction). }
  destruct (until (fun x => x <> x0a) _ _ _ _ _ _ (fun x => P a x Ha) (fun x => P b x Hb) ltac:(tauto) ltac:(tauto) E) as (E1 & _ & E3).
  split; [|exact E3]. clear - Ha Hb E1.
  repeat (destruct Ha as [<-|Ha]); [..|contradiction];
    (repeat (destruct Hb as [<-|Hb]); [..|contradiction]); try reflexivity; vm_compute in E1; discriminate E1.
Qed.

Lemma insn_until : forall i j s t, listed i -> listed j ->
  insn_string quote show i ++ x0a :: s = insn_string quote show j ++ x0a :: t -> i = j /\ s = t.
Proof.
  intros i j s t Li Lj E.
  assert (H : clash (head i) (head j) = false).
  { destruct (head_spec i s) as [u Hu], (head_spec j t) as [v Hv]. rewrite Hu, Hv in E.
    destruct (clash (head i) (head j)) eqn:C; [exfalso; exact (clash_app _ _ _ _ C E)|reflexivity]. }
  destruct i, j; try (vm_compute in H; discriminate H); clear H;
    cbn [insn_string listed] in *; try contradiction;
    rewrite <- ?app_assoc in E; try apply app_inv_head in E;
    change (lit " ") with [x20] in E; cbn [app] in E; repeat field.
  - apply empty_until in E; auto. destruct E as [-> ->]. auto.
  - destruct fail, fail0; try (vm_compute in E; discriminate E); apply app_inv_head in E; repeat field.
  - destruct Q as [Q1 Q2].
    destruct (until (fun x => x <> x0a) (quote msg) (quote msg0) x0a x0a s t) as (E1 & _ & ->); auto.
    + intros c Hc ->. exact (Q2 _ Hc).
    + intros c Hc ->. exact (Q2 _ Hc).
    + split; [f_equal; apply Q1, E1|reflexivity].
Qed.

(* ---------- programs ---------- *)

Lemma lines_nops : forall p b, prog_lines quote show b p = prog_lines quote show b (without_nops p).
Proof.
  induction p as [|i p IH]; intro b; [reflexivity|].
  destruct i; cbn [without_nops filter prog_lines] in *; fold (without_nops p); rewrite <- ?IH; reflexivity.
Qed.

Definition is_label (i : insn) : bool := match i with ILabel _ => true | _ => false end.

Lemma line_label : forall b l p, prog_lines quote show b (ILabel l :: p) =
  (if b then [x0a] else []) ++ lbl_string l ++ x3a :: prog_lines quote show true p.
Proof. reflexivity. Qed.

Lemma line_insn : forall b i p, i <> INop -> is_label i = false -> prog_lines quote show b (i :: p) =
  x09 :: insn_string quote show i ++ x0a :: prog_lines quote show false p.
Proof. intros b i p H1 H2. destruct i; try discriminate; try congruence; reflexivity. Qed.

Lemma line_nonnil : forall b i p, i <> INop -> prog_lines quote show b (i :: p) <> [].
Proof.
  intros b i p H E. destruct (is_label i) eqn:L.
  - destruct i; try discriminate. rewrite line_label in E. destruct b; discriminate E.
  - rewrite line_insn in E by assumption. discriminate E.
Qed.

Lemma lines_inj : forall p q b, Forall listed p -> Forall listed q -> ~ In INop p -> ~ In INop q ->
  prog_lines quote show b p ++ [x0a] = prog_lines quote show b q ++ [x0a] -> p = q.
Proof.
  induction p as [|i p IH]; intros q b Lp Lq Np Nq E.
  - destruct q as [|j q]; [reflexivity|]. apply app_inv_tail in E. symmetry in E.
    apply line_nonnil in E; [contradiction|]. intros ->. apply Nq. left. reflexivity.
  - assert (Ni : i <> INop) by (intros ->; apply Np; left; reflexivity).
    destruct q as [|j q]; [apply app_inv_tail in E; apply line_nonnil in E; [contradiction|exact Ni]|].
    assert (Nj : j <> INop) by (intros ->; apply Nq; left; reflexivity).
    inversion Lp; inversion Lq; subst.
    assert (Np' : ~ In INop p) by (intro; apply Np; right; assumption).
    assert (Nq' : ~ In INop q) by (intro; apply Nq; right; assumption).
    destruct (is_label i) eqn:Fi, (is_label j) eqn:Fj.
    + destruct i; try discriminate. destruct j; try discriminate. rewrite !line_label, <- !app_assoc in E.
      apply app_inv_head in E. cbn [app] in E. apply lbl_until in E; [|sep|sep]. destruct E as (-> & _ & E).
      f_equal. eapply IH; eauto.
    + destruct i; try discriminate. rewrite line_label, line_insn in E by assumption. destruct b; discriminate E.
    + destruct j; try discriminate. rewrite line_label, line_insn in E by assumption. destruct b; discriminate E.
    + rewrite !line_insn in E by assumption. cbn [app] in E. rewrite <- !app_assoc in E. cbn [app] in E.
      apply (f_equal (@List.tl byte)) in E. cbn [List.tl] in E. apply insn_until in E; auto. destruct E as (-> & E).
      f_equal. eapply IH; eauto.
Qed.

Lemma no_nops : forall p, ~ In INop (without_nops p).
Proof. intros p H. apply filter_In in H. destruct H as [_ H]. discriminate H. Qed.

Lemma p_listing : forall p q, Forall listed p -> Forall listed q ->
  prog_string quote show p = prog_string quote show q -> without_nops p = without_nops q.
Proof.
  intros p q Lp Lq E. unfold prog_string in E. rewrite (lines_nops p), (lines_nops q) in E.
  assert (F : forall r, Forall listed r -> Forall listed (without_nops r)).
  { intros r H. apply Forall_forall. intros x Hx. apply filter_In in Hx. rewrite Forall_forall in H. apply H, Hx. }
  apply (lines_inj _ _ false); auto using no_nops.
Qed.
End Listing.

(* ---------- the code of a program ---------- *)

Lemma offset_nops : forall p l off acc, lbl_offset_aux (without_nops p) l off acc = lbl_offset_aux p l off acc.
Proof.
  induction p as [|i p IH]; intros l off acc; [reflexivity|].
  destruct i; cbn [without_nops filter lbl_offset_aux]; fold (without_nops p); rewrite IH; try reflexivity.
  cbn [insn_size]. rewrite Nat.add_0_r. reflexivity.
Qed.

Lemma loop_nops : forall p f c, encode_loop f (without_nops p) c = encode_loop f p c.
Proof.
  induction p as [|i p IH]; intros f c; [reflexivity|].
  destruct i; cbn [without_nops filter]; fold (without_nops p); cbn [encode_loop is_label_or_nop];
    try apply IH; match goal with |- match ?e with _ => _ end = _ => destruct e as [[a c']|]; [apply IH|reflexivity] end.
Qed.

Lemma loop_ext : forall p f g c, (forall l, f l = g l) -> encode_loop f p c = encode_loop g p c.
Proof.
  induction p as [|i p IH]; intros f g c H; [reflexivity|]. cbn [encode_loop].
  assert (A : encode_args f c i = encode_args g c i) by (destruct i; cbn [encode_args]; rewrite ?H; reflexivity).
  rewrite A. destruct (is_label_or_nop i); [apply IH, H|]. destruct (encode_args g c i) as [[a c']|]; [apply IH, H|reflexivity].
Qed.

Lemma encode_nops : forall p, encode (without_nops p) = encode p.
Proof.
  intro p. unfold encode. rewrite loop_nops.
  rewrite (loop_ext p (lbl_offset (without_nops p)) (lbl_offset p)); [reflexivity|].
  intro l. apply offset_nops.
Qed.
