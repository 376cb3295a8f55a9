(** The text of a capture tells its shape. *)
From Coq Require Import String.
From Verif Require Import Base Model_Charset Model_Isa Model_Capture Model_Listing Spec_Peg Proof_Capture Proof_Listing Model_CapString Spec_CapString.
Local Open Scope list_scope.
Local Open Scope nat_scope.

Fixpoint joined (cs : list capture) : list byte :=
  match cs with
  | [] => []
  | [c] => cap_string c
  | c :: cs => cap_string c ++ lit ", " ++ joined cs
  end.

Lemma cap_string_eq : forall d id st ln cs, cap_string (Capture d id st ln cs) = x7b :: dec_z id ++ x2c :: x20 :: x5b :: joined cs ++ [x5d; x7d].
Proof. reflexivity. Qed.

Lemma cap_string_head : forall c, exists u, cap_string c = x7b :: u.
Proof. intros [d id st ln cs]. rewrite cap_string_eq. eauto. Qed.

Definition tells (c : capture) : Prop := forall d s t, cap_string c ++ s = cap_string d ++ t -> shape c = shape d /\ s = t.

Lemma joined_tells : forall cs, Forall tells cs -> forall ds s t, joined cs ++ x5d :: s = joined ds ++ x5d :: t ->
  map shape cs = map shape ds /\ s = t.
Proof.
  induction cs as [|c cs IH]; intros F ds s t E.
  - destruct ds as [|d ds]; [cbn in E; injection E as ->; auto|]. exfalso. destruct (cap_string_head d) as [u Hu].
    destruct ds; cbn [joined] in E; rewrite Hu in E; discriminate E.
  - inversion F as [|? ? Fc Fs]; subst. destruct ds as [|d ds].
    + exfalso. destruct (cap_string_head c) as [u Hu]. destruct cs; cbn [joined] in E; rewrite Hu in E; discriminate E.
    + destruct cs as [|c' cs], ds as [|d' ds].
      * cbn [joined] in E. apply Fc in E. destruct E as (E1 & E2). injection E2 as ->. cbn [map]. rewrite E1. auto.
      * exfalso. change (joined (d :: d' :: ds)) with (cap_string d ++ [x2c; x20] ++ joined (d' :: ds)) in E.
        cbn [joined] in E. rewrite <- app_assoc in E. apply Fc in E. destruct E as (_ & E). discriminate E.
      * exfalso. change (joined (c :: c' :: cs)) with (cap_string c ++ [x2c; x20] ++ joined (c' :: cs)) in E.
        change (joined [d]) with (cap_string d) in E. rewrite <- app_assoc in E. apply Fc in E. destruct E as (_ & E). discriminate E.
      * change (joined (c :: c' :: cs)) with (cap_string c ++ [x2c; x20] ++ joined (c' :: cs)) in E.
        change (joined (d :: d' :: ds)) with (cap_string d ++ [x2c; x20] ++ joined (d' :: ds)) in E.
        rewrite <- !app_assoc in E. apply Fc in E. destruct E as (E1 & E2). apply (f_equal (skipn 2)) in E2. cbn [skipn app] in E2.
        apply IH in E2; [|exact Fs]. destruct E2 as (E2 & E3). rewrite !(map_cons _ c), !(map_cons _ d), E1, E2. auto.
Qed.

Lemma p_tells : forall c, tells c.
Proof.
  induction c as [d id st ln cs IH] using capture_ind'. intros [d' id' st' ln' cs'] s t E.
  rewrite !cap_string_eq in E. cbn [app] in E. rewrite <- !app_assoc in E. apply (f_equal (@List.tl byte)) in E. cbn [List.tl app] in E.
  apply dec_z_until in E; [|sep|sep]. destruct E as (-> & _ & E). injection E as E. rewrite <- !app_assoc in E. cbn [app] in E.
  apply joined_tells in E; [|exact IH]. destruct E as (E & E2). injection E2 as ->. cbn [shape]. rewrite E. auto.
Qed.

Lemma shape_string : forall c d, shape c = shape d -> cap_string c = cap_string d.
Proof.
  induction c as [dm id st ln cs IH] using capture_ind'. intros [dm' id' st' ln' cs'] E. cbn [shape] in E. injection E as -> E.
  rewrite !cap_string_eq. do 5 f_equal. f_equal. revert cs' E. induction IH as [|c cs Hc Hcs IHl]; intros [|d ds] E; try discriminate E; [reflexivity|].
  rewrite !map_cons in E. injection E as E1 E2. apply Hc in E1. specialize (IHl ds E2).
  destruct cs as [|c' cs], ds as [|d' ds]; try discriminate E2; [exact E1|].
  change (joined (c :: c' :: cs)) with (cap_string c ++ x2c :: x20 :: joined (c' :: cs)).
  change (joined (d :: d' :: ds)) with (cap_string d ++ x2c :: x20 :: joined (d' :: ds)).
  rewrite E1, IHl. reflexivity.
Qed.

Lemma p_shape : forall c d, cap_string c = cap_string d <-> shape c = shape d.
Proof.
  intros c d. split; [|apply shape_string]. intro E. apply (p_tells c d [] []). rewrite !app_nil_r. exact E.
Qed.

Lemma flat1_eq : forall d id st ln cs, flat1 (Capture d id st ln cs) = if d then flat cs else [CNode id st ln (flat cs)].
Proof.
  intros d id st ln cs. cbn [flat1].
  assert (E : (fix go (cs : list capture) : list ctree := match cs with [] => [] | c :: cs => flat1 c ++ go cs end) cs = flat cs).
  { induction cs as [|c cs IH]; [reflexivity|]. cbn [flat]. rewrite <- IH. reflexivity. }
  rewrite E. reflexivity.
Qed.

Lemma solid_bare : forall c, solid c -> map bare (flat1 c) = [shape c].
Proof.
  induction c as [d id st ln cs IH] using capture_ind'. intro S. inversion S as [? ? ? ? F]; subst.
  rewrite flat1_eq. cbn [map bare shape]. do 2 f_equal. clear S.
  induction IH as [|c cs Hc Hcs IHl]; [reflexivity|]. inversion F; subst. cbn [flat]. rewrite map_app, Hc, IHl by assumption. reflexivity.
Qed.

Lemma p_solid : forall c d, solid c -> solid d -> (cap_string c = cap_string d <-> map bare (flat1 c) = map bare (flat1 d)).
Proof.
  intros c d Sc Sd. rewrite p_shape, (solid_bare c Sc), (solid_bare d Sd). split; [intros ->; reflexivity|congruence].
Qed.
