(** What the functions of Proof_Json recognise. *)
From Coq Require Import ZArith String.
From Verif Require Import Base Spec_Re Spec_Json Proof_Charset Proof_Re Proof_Re2 Proof_Json.
Local Open Scope nat_scope.

(* ---------- they never run out of fuel ---------- *)
Lemma safe_un : forall A k b (f : reader A), safe k b f -> safe k b (un f).
Proof.
  intros A k b f F t L. destruct (F t L) as [F1 F2]. unfold un, bind, ret. destruct (f t) as [| |a r]; [contradiction|split; [discriminate|intros; discriminate]|]. split; [discriminate|]. intros a' r' H. injection H as <- <-. eapply F2. reflexivity.
Qed.
Lemma safe_seq1 : forall A B k (f : reader A) (g : reader B), safe k true f -> (forall k', k = S k' -> safe k' false g) -> safe k true (f ;; g).
Proof. intros A B k f g F G. eapply safe_bind'; [exact F|]. intros k' E _. apply G. exact E. Qed.
Lemma safe_seq2 : forall A B k b (f : reader A) (g : reader B), safe k false f -> safe k b g -> safe k b (f ;; g).
Proof. intros A B k b f g F G. apply safe_bind; auto. Qed.
Lemma safe_seq : forall A B k (f : reader A) (g : reader B), safe k true f -> safe k false g -> safe k true (f ;; g).
Proof. intros A B k f g F G. apply safe_seq1; [exact F|]. intros k' ->. eapply safe_le; [exact G|lia]. Qed.
Lemma safe_plus : forall A k (f : reader A), safe k true f -> safe k true (plus f).
Proof. intros A k f F. apply safe_seq; [exact F|]. apply safe_many. exact F. Qed.
Lemma safe_ws : forall k, safe k false ws.
Proof. intro k. apply safe_many, safe_sat. Qed.
Lemma safe_uni : forall k, safe k true uni.
Proof.
  intro k. unfold uni. apply safe_seq; [|apply safe_un; eapply safe_weak, safe_sat]. do 3 (apply safe_seq; [|eapply safe_weak, safe_sat]). apply safe_str1.
Qed.
Lemma safe_esc : forall k, safe k true esc.
Proof. intro k. unfold esc. apply safe_seq; [apply safe_str1|]. apply safe_weak with true. apply safe_or; [apply safe_un, safe_sat|apply safe_uni]. Qed.
Lemma safe_plain : forall k, safe k true plain.
Proof. intro k. unfold plain. apply safe_seq2; [eapply safe_unless, safe_sat|apply safe_sat]. Qed.
Lemma safe_group : forall k, safe k true group.
Proof. intro k. unfold group. apply safe_seq; [apply safe_plus, safe_plain|apply safe_many, safe_esc]. Qed.
Lemma safe_body : forall k, safe k false body.
Proof. intro k. unfold body. apply safe_seq2; [eapply safe_maybe, safe_esc|apply safe_un, safe_many, safe_group]. Qed.
Lemma safe_jstr : forall k, safe k true jstr.
Proof.
  intro k. unfold jstr. apply safe_seq; [|apply safe_un, safe_ws]. apply safe_seq; [|eapply safe_weak, safe_str1]. apply safe_seq; [|apply safe_body]. apply safe_seq2; [apply safe_ws|apply safe_str1].
Qed.
Lemma safe_num : forall k, safe k true num.
Proof.
  intro k. unfold num. assert (P : safe k true (un (plus digit))) by (apply safe_un, safe_plus, safe_sat).
  apply safe_seq; [|apply safe_un; apply (safe_maybe _ _ true); unfold expo; apply safe_seq; [|eapply safe_weak; exact P]; apply safe_seq; [apply safe_sat|apply (safe_maybe _ _ true), safe_sat]].
  apply safe_seq; [|apply (safe_maybe _ _ true); unfold fract; apply safe_seq; [apply safe_str1|eapply safe_weak; exact P]].
  apply safe_seq2; [apply (safe_maybe _ _ true), safe_str1|]. unfold int. apply safe_or; [apply safe_str1|]. apply safe_un. apply safe_seq; [apply safe_sat|apply safe_many, safe_sat].
Qed.
Lemma safe_json1 : forall J k, (forall k', k = S k' -> safe k' true J) -> safe k true (json1 J).
Proof.
  intros J k HJ. unfold json1. apply safe_seq; [|apply safe_un, safe_ws]. apply safe_seq2; [apply safe_ws|]. unfold val.
  apply safe_or; [apply safe_num|]. apply safe_or.
  { unfold obj. apply safe_seq; [|eapply safe_weak, safe_str1]. apply safe_seq1; [apply safe_str1|]. intros k' ->. specialize (HJ k' eq_refl). apply safe_or; [|apply safe_un, safe_ws]. apply safe_weak with true. apply safe_un.
    apply safe_seq; [|apply safe_many; unfold item; apply safe_seq; [|eapply safe_weak, HJ]; apply safe_seq; [|eapply safe_weak, safe_str1]; apply safe_seq; [apply safe_str1|eapply safe_weak, safe_jstr]].
    apply safe_seq; [|eapply safe_weak, HJ]. apply safe_seq; [apply safe_jstr|eapply safe_weak, safe_str1]. }
  apply safe_or.
  { unfold arr. apply safe_seq; [|eapply safe_weak, safe_str1]. apply safe_seq1; [apply safe_str1|]. intros k' ->. specialize (HJ k' eq_refl). apply safe_or; [|apply safe_un, safe_ws]. apply safe_weak with true. apply safe_un.
    apply safe_seq; [exact HJ|]. apply safe_many. apply safe_seq; [apply safe_str1|eapply safe_weak, HJ]. }
  apply safe_or; [apply safe_jstr|]. repeat apply safe_or; apply safe_str1.
Qed.
Lemma safe_json : forall n, safe n true (json (S n)).
Proof. induction n as [|n IH]; apply safe_json1; intros k' E; [discriminate|]. injection E as <-. exact IH. Qed.
Lemma doc_total : forall t, doc (S (List.length t)) t <> Out.
Proof.
  intro t. pose proof (safe_seq _ _ _ _ _ (safe_json (List.length t)) (safe_unless _ _ true _ (safe_sat _ (fun _ => true))) t (le_n _)) as [H _]. exact H.
Qed.

(* ---------- what they take is in the language ---------- *)
Definition lang {A} (f : reader A) (P : list byte -> Prop) : Prop := forall t a rest, f t = Yes a rest -> exists u, t = u ++ rest /\ P u.
Definition cat (P Q : list byte -> Prop) (w : list byte) : Prop := exists u v, w = u ++ v /\ P u /\ Q v.
Inductive rep (P : list byte -> Prop) : list byte -> Prop :=
| rep_nil : rep P []
| rep_cons : forall u v, P u -> rep P v -> rep P (u ++ v).
Definition opt (P : list byte -> Prop) (u : list byte) : Prop := u = [] \/ P u.
Definition nothing (u : list byte) : Prop := u = [].
Lemma lang_weak : forall A (f : reader A) (P Q : list byte -> Prop), lang f P -> (forall u, P u -> Q u) -> lang f Q.
Proof. intros A f P Q F W t a rest H. destruct (F t a rest H) as (u & E & H'). exists u. auto. Qed.
Lemma lang_seq : forall A B (f : reader A) (g : reader B) P Q, lang f P -> lang g Q -> lang (f ;; g) (cat P Q).
Proof.
  intros A B f g P Q F G t b rest H. apply bind_yes in H as (a & t' & H1 & H2). destruct (F _ _ _ H1) as (u & -> & Pu). destruct (G _ _ _ H2) as (v & -> & Pv). exists (u ++ v). split; [apply app_assoc|]. exists u, v. auto.
Qed.
Lemma lang_un : forall A (f : reader A) P, lang f P -> lang (un f) P.
Proof. intros A f P F t a rest H. apply bind_yes in H as (x & t' & H1 & H2). injection H2 as _ <-. exact (F _ _ _ H1). Qed.
Lemma lang_or : forall A (f g : reader A) (P Q : list byte -> Prop), lang f P -> lang g Q -> lang (f // g) (fun u => P u \/ Q u).
Proof.
  intros A f g P Q F G t a rest H. unfold orelse in H. destruct (f t) as [| |a' r] eqn:E; [discriminate| |].
  - destruct (G _ _ _ H) as (u & -> & Pu). exists u. auto.
  - injection H as -> ->. destruct (F _ _ _ E) as (u & -> & Pu). exists u. auto.
Qed.
Lemma lang_maybe : forall A (f : reader A) P, lang f P -> lang (maybe f) (opt P).
Proof.
  intros A f P F t a rest H. unfold maybe in H. destruct (f t) as [| |a' r] eqn:E; [discriminate| |]; injection H as <- <-.
  - exists []. split; [reflexivity|]. left. reflexivity.
  - destruct (F _ _ _ E) as (u & -> & Pu). exists u. split; [reflexivity|]. right. exact Pu.
Qed.
Lemma lang_many : forall A (f : reader A) P, lang f P -> lang (many f) (rep P).
Proof.
  intros A f P F t. unfold many. generalize (S (List.length t)) as n. intro n. revert t. induction n as [|n IH]; intros t l rest H; [discriminate|]. cbn [many'] in H. destruct (f t) as [| |a r] eqn:E; [discriminate| |].
  - injection H as <- <-. exists []. split; [reflexivity|constructor].
  - destruct (many' n f r) as [| |l' r'] eqn:E'; try discriminate. injection H as <- <-. destruct (F _ _ _ E) as (u & -> & Pu). destruct (IH _ _ _ E') as (v & -> & Pv). exists (u ++ v). split; [apply app_assoc|]. constructor; assumption.
Qed.
Lemma lang_plus : forall A (f : reader A) P, lang f P -> lang (plus f) (cat P (rep P)).
Proof. intros A f P F. apply lang_seq; [exact F|]. apply lang_many. exact F. Qed.
Lemma lang_sat : forall P, lang (sat P) (fun u => exists b, u = [b] /\ P b = true).
Proof. intros P t a rest H. unfold sat in H. destruct t as [|b t]; [discriminate|]. destruct (P b) eqn:E; [|discriminate]. injection H as <- <-. exists [b]. split; [reflexivity|]. exists b. auto. Qed.
Lemma lang_str : forall l, lang (str l) (fun u => u = l).
Proof. intros l t a rest H. pose proof (str_spec l t) as S. rewrite H in S. exists l. auto. Qed.
Lemma rep_sat : forall P w, rep (fun u => exists b, u = [b] /\ P b = true) w -> Forall (fun b => P b = true) w.
Proof. intros P w H. induction H as [|u v (b & -> & Pb) _ IH]; [constructor|]. constructor; assumption. Qed.
Lemma lang_manysat : forall P, lang (many (sat P)) (fun w => Forall (fun b => P b = true) w).
Proof. intro P. eapply lang_weak; [apply lang_many, lang_sat|]. apply rep_sat. Qed.
Lemma lang_digits : lang (plus digit) digits.
Proof.
  eapply lang_weak; [apply lang_plus, lang_sat|]. intros w (u & v & -> & (b & -> & Pb) & H). apply rep_sat in H. split; [discriminate|]. constructor; assumption.
Qed.

(** strings *)
Local Notation chars := (chars peg_letter).
Lemma chars_app : forall l u, chars l u -> forall l' u', chars l' u' -> chars (l ++ l') (u ++ u').
Proof. intros l u H. induction H; intros l' u' H'; cbn [app]; [exact H'|apply ch_plain|apply ch_letter|apply ch_unicode]; auto. Qed.
Lemma lang_esc : lang esc (chars [true]).
Proof.
  eapply lang_weak; [apply lang_seq; [apply lang_str|]; apply lang_or; [apply lang_un, lang_sat|]|].
  - apply lang_seq; [apply lang_seq; [apply lang_seq; [apply lang_seq; [apply lang_str|apply lang_sat]|apply lang_sat]|apply lang_sat]|apply lang_un, lang_sat].
  - intros w (u & v & -> & -> & [(b & -> & H)|(u1 & v1 & -> & (u2 & v2 & -> & (u3 & v3 & -> & (u4 & v4 & -> & -> & (b4 & -> & H4)) & (b3 & -> & H3)) & (b2 & -> & H2)) & (b1 & -> & H1))]).
    + cbn. apply ch_letter; [exact H|constructor].
    + cbn. apply ch_unicode; try assumption. constructor.
Qed.
Lemma lang_plain : lang plain (chars [false]).
Proof.
  intros t a rest H. unfold plain in H. apply bind_yes in H as (x & t' & H1 & H2). unfold unless, sat in H1. unfold any, sat in H2. destruct t as [|b t].
  - injection H1 as _ <-. discriminate.
  - destruct (bad b) eqn:E; [discriminate|]. injection H1 as _ <-. injection H2 as _ <-. exists [b]. split; [reflexivity|]. apply ch_plain; [|constructor]. unfold bad in E. apply negb_false_iff in E. exact E.
Qed.
Lemma rep_chars : forall (P : list byte -> Prop) w, (forall u, P u -> exists l, chars l u) -> rep P w -> exists l, chars l w.
Proof. intros P w Q H. induction H as [|u v Pu _ [l IH]]; [exists []; constructor|]. destruct (Q u Pu) as [l' Q']. exists (l' ++ l). apply chars_app; assumption. Qed.
Lemma lang_group : lang group (fun u => exists l, chars (false :: l) u).
Proof.
  eapply lang_weak; [apply lang_seq; [apply lang_plus, lang_plain|apply lang_many, lang_esc]|]. intros w (u & v & -> & (u1 & v1 & -> & H1 & H2) & H3).
  apply rep_chars in H2 as [l2 H2]; [|eauto]. apply rep_chars in H3 as [l3 H3]; [|eauto]. exists (l2 ++ l3). rewrite <- app_assoc. apply (chars_app [false] u1 H1). apply chars_app; assumption.
Qed.
Lemma lang_body : lang body (fun u => exists l, chars l u /\ peg_allowed l).
Proof.
  eapply lang_weak; [apply lang_seq; [apply lang_maybe, lang_esc|apply lang_un, lang_many, lang_group]|]. intros w (u & v & -> & Hu & Hv).
  assert (Q : exists l, chars l v /\ match l with true :: _ => False | _ => True end).
  { clear Hu. induction Hv as [|a b (l & Ha) Hv IH]; [exists []; split; [constructor|exact Logic.I]|]. destruct IH as (l' & H' & _). exists (false :: l ++ l'). split; [|exact Logic.I]. apply (chars_app _ _ Ha). exact H'. }
  destruct Q as (l & Hl & A). destruct Hu as [->|Hu].
  - exists l. split; [exact Hl|]. destruct l as [|[|] l]; [exact Logic.I|contradiction|exact Logic.I].
  - exists (true :: l). split; [apply (chars_app _ _ Hu); exact Hl|]. destruct l as [|[|] l]; [exact Logic.I|contradiction|exact Logic.I].
Qed.
Local Notation blanks := (Spec_Json.blanks peg_blank).
Local Notation jstring := (jstring peg_letter peg_allowed).
Definition padded (P : list byte -> Prop) (w : list byte) : Prop := exists a u b, w = a ++ u ++ b /\ blanks a /\ P u /\ blanks b.
Lemma lang_ws : lang ws blanks.
Proof. apply lang_manysat. Qed.
Lemma lang_jstr : lang jstr (padded jstring).
Proof.
  eapply lang_weak; [apply lang_seq; [apply lang_seq; [apply lang_seq; [apply lang_seq; [apply lang_ws|apply lang_str]|apply lang_body]|apply lang_str]|apply lang_un, lang_ws]|].
  intros w (u & b & -> & (u1 & q2 & -> & (u2 & v & -> & (a & q1 & -> & Ha & ->) & (l & Hl & A)) & ->) & Hb).
  exists a, (x22 :: v ++ [x22]), b. split; [rewrite <- !app_assoc; cbn [app]; rewrite <- !app_assoc; reflexivity|]. split; [exact Ha|]. split; [|exact Hb]. exists l, v. auto.
Qed.
Lemma lang_num : lang num number.
Proof.
  unfold num. eapply lang_weak; [apply lang_seq; [apply lang_seq; [apply lang_seq; [apply lang_maybe, lang_str|]|apply lang_maybe]|apply lang_un, lang_maybe]|].
  - apply lang_or; [apply lang_str|apply lang_un, lang_seq; [apply lang_sat|apply lang_manysat]].
  - apply lang_seq; [apply lang_str|apply lang_un, lang_digits].
  - apply lang_seq; [apply lang_seq; [apply lang_sat|apply lang_maybe, lang_sat]|apply lang_un, lang_digits].
  - intros w (u1 & e & -> & (u2 & f & -> & (m & i & -> & Hm & Hi) & Hf) & He). exists m, i, f, e. split; [rewrite <- !app_assoc; reflexivity|]. split; [exact Hm|]. split; [|split].
    + destruct Hi as [->|(u & v & -> & (d & -> & Hd) & Hv)]; [constructor|]. apply int_other; assumption.
    + destruct Hf as [->|(u & v & -> & -> & Hv)]; [left; reflexivity|]. right. exists v. auto.
    + destruct He as [->|(u & v & -> & (u1 & v1 & -> & (b & -> & Hb) & Hs) & Hv)]; [left; reflexivity|]. right. exists b, v1, v. split; [rewrite <- app_assoc; reflexivity|]. split; [exact Hb|]. split; [|exact Hv].
      destruct Hs as [->|(c & -> & Hc)]; [left; reflexivity|]. right. destruct c; try discriminate Hc; auto.
Qed.
(** values *)
Local Notation value := (value peg_blank peg_letter peg_allowed).
Local Notation element := (element peg_blank peg_letter peg_allowed).
Local Notation elements := (elements peg_blank peg_letter peg_allowed).
Local Notation member := (member peg_blank peg_letter peg_allowed).
Local Notation members := (members peg_blank peg_letter peg_allowed).
Lemma blanks_app : forall a b, blanks a -> blanks b -> blanks (a ++ b).
Proof. intros a b A B. apply Forall_app. auto. Qed.
Lemma more_elements : forall v, rep (fun u => exists e, u = x2c :: e /\ element e) v -> forall e, element e -> elements (e ++ v).
Proof.
  intros v H. induction H as [|u v (e' & -> & He') _ IH]; intros e He; [rewrite app_nil_r; apply es_one; exact He|]. cbn [app]. apply es_more; [exact He|]. apply IH. exact He'.
Qed.
Lemma more_members : forall v, rep (fun u => exists e, u = x2c :: e /\ member e) v -> forall e, member e -> members (e ++ v).
Proof.
  intros v H. induction H as [|u v (e' & -> & He') _ IH]; intros e He; [rewrite app_nil_r; apply ms_one; exact He|]. cbn [app]. apply ms_more; [exact He|]. apply IH. exact He'.
Qed.
Lemma rep_weak : forall (P Q : list byte -> Prop), (forall u, P u -> Q u) -> forall w, rep P w -> rep Q w.
Proof. intros P Q H w R. induction R; constructor; auto. Qed.
Lemma padded_member : forall s e, padded jstring s -> element e -> member (s ++ x3a :: e).
Proof. intros s e (a & u & b & -> & Ha & Hu & Hb) He. rewrite <- !app_assoc. apply m_pair; assumption. Qed.
Lemma lang_val : forall J, lang J element -> lang (val J) (padded value).
Proof.
  intros J HJ.
  assert (V : forall u, value u -> padded value u) by (intros u H; exists [], u, []; rewrite app_nil_r; repeat split; [constructor|exact H|constructor]).
  unfold val.
  eapply lang_weak; [apply lang_or; [apply lang_num|apply lang_or; [|apply lang_or; [|apply lang_or; [apply lang_jstr|apply lang_or; [apply lang_str|apply lang_or; apply lang_str]]]]]|].
  - apply lang_seq; [apply lang_seq; [apply lang_str|apply lang_or; [apply lang_un, lang_seq; [apply lang_seq; [apply lang_seq; [apply lang_jstr|apply lang_str]|exact HJ]|apply lang_many; apply lang_seq; [apply lang_seq; [apply lang_seq; [apply lang_str|apply lang_jstr]|apply lang_str]|exact HJ]]|apply lang_un, lang_ws]]|apply lang_str].
  - apply lang_seq; [apply lang_seq; [apply lang_str|apply lang_or; [apply lang_un, lang_seq; [exact HJ|apply lang_many; apply lang_seq; [apply lang_str|exact HJ]]|apply lang_un, lang_ws]]|apply lang_str].
  - intros w [H|[H|[H|[H|[->|[-> | ->]]]]]].
    + apply V, v_number, H.
    + destruct H as (u & v & -> & (u1 & v1 & -> & -> & H) & ->). apply V. destruct H as [(u2 & v2 & -> & (u3 & e & -> & (s & c & -> & Hs & ->) & He) & Hr)|H]; [|apply v_object0; exact H].
      apply (v_object _ _ _ (((s ++ [x3a]) ++ e) ++ v2)). apply more_members.
      * revert Hr. apply rep_weak. intros u (u4 & e' & -> & (u5 & c & -> & (u6 & s' & -> & -> & Hs') & ->) & He'). exists (s' ++ x3a :: e'). split; [cbn; rewrite <- app_assoc; reflexivity|]. apply padded_member; assumption.
      * rewrite <- app_assoc. apply padded_member; assumption.
    + destruct H as (u & v & -> & (u1 & v1 & -> & -> & H) & ->). apply V. destruct H as [(e & v2 & -> & He & Hr)|H]; [|apply v_array0; exact H].
      apply (v_array _ _ _ (e ++ v2)). apply more_elements; [|exact He]. revert Hr. apply rep_weak. intros u (u4 & e' & -> & -> & He'). exists e'. auto.
    + destruct H as (a & u & b & -> & Ha & Hu & Hb). exists a, u, b. repeat split; try assumption. apply v_string. exact Hu.
    + apply V, v_true.
    + apply V, v_false.
    + apply V, v_null.
Qed.
Lemma lang_json : forall n, lang (json n) element.
Proof.
  induction n as [|n IH]; [intros t a rest H; discriminate|]. cbn [json]. eapply lang_weak; [apply lang_seq; [apply lang_seq; [apply lang_ws|apply lang_val; exact IH]|apply lang_un, lang_ws]|].
  intros w (u1 & b & -> & (a & u2 & -> & Ha & (a' & u & b' & -> & Ha' & Hu & Hb')) & Hb). replace ((a ++ a' ++ u ++ b') ++ b) with ((a ++ a') ++ u ++ (b' ++ b)) by (rewrite <- !app_assoc; reflexivity).
  apply e_value; [apply blanks_app; assumption|exact Hu|apply blanks_app; assumption].
Qed.
Lemma doc_sound : forall n t a rest, doc n t = Yes a rest -> rest = [] /\ element t.
Proof.
  intros n t a rest H. apply bind_yes in H as (x & t' & H1 & H2). destruct (lang_json n _ _ _ H1) as (u & -> & Hu). unfold unless, any, sat in H2. destruct t' as [|b t']; [|discriminate]. injection H2 as _ <-. rewrite app_nil_r. auto.
Qed.

(* ---------- all of the language is taken ---------- *)
Definition fails (P : byte -> bool) (t : list byte) : Prop := match t with b :: _ => P b = false | [] => True end.
Lemma many_reads : forall P w t, Forall (fun b => P b = true) w -> fails P t -> many (sat P) (w ++ t) = Yes w t.
Proof.
  intros P w t H F. apply chain_many. induction H as [|b w Hb _ IH].
  - apply chain_nil. destruct t as [|b t]; [reflexivity|]. cbn in *. rewrite F. reflexivity.
  - eapply chain_cons; [|shelve|exact IH]. cbn. rewrite Hb. reflexivity.
    Unshelve. cbn. lia.
Qed.
Lemma plus_reads : forall P w t, w <> [] -> Forall (fun b => P b = true) w -> fails P t -> exists l, plus (sat P) (w ++ t) = Yes l t.
Proof.
  intros P w t N H F. destruct w as [|b w]; [contradiction|]. inversion H as [|? ? Hb Hw]; subst. exists w. unfold plus. cbn [app]. unfold bind at 1. unfold sat at 1. rewrite Hb. apply many_reads; assumption.
Qed.
Lemma un_is : forall A (f : reader A) t a r, f t = Yes a r -> un f t = Yes tt r.
Proof. intros A f t a r H. unfold un, bind. rewrite H. reflexivity. Qed.
Lemma un_no : forall A (f : reader A) t, f t = No -> un f t = No.
Proof. intros A f t H. unfold un, bind. rewrite H. reflexivity. Qed.
Lemma maybe_is : forall A (f : reader A) t a r, f t = Yes a r -> maybe f t = Yes (Some a) r.
Proof. intros A f t a r H. unfold maybe. rewrite H. reflexivity. Qed.
Lemma maybe_no : forall A (f : reader A) t, f t = No -> maybe f t = Yes None t.
Proof. intros A f t H. unfold maybe. rewrite H. reflexivity. Qed.
Lemma sat_is : forall (P : byte -> bool) b t, P b = true -> sat P (b :: t) = Yes b t.
Proof. intros P b t H. cbn. rewrite H. reflexivity. Qed.
Lemma sat_no : forall P t, fails P t -> sat P t = No.
Proof. intros P [|b t] H; [reflexivity|]. cbn in *. rewrite H. reflexivity. Qed.
Lemma str1_no : forall b l t, fails (byte_eqb b) t -> str (b :: l) t = No.
Proof. intros b l t H. cbn [str]. apply bind_no. apply sat_no. exact H. Qed.

(** numbers *)
Definition numeric (b : byte) : bool := is_digit b || one_of [x2e; x65; x45] b.
Lemma fails_weak : forall (P Q : byte -> bool) t, fails P t -> (forall b, Q b = true -> P b = true) -> fails Q t.
Proof. intros P Q [|b t] F H; [exact Logic.I|]. cbn in *. destruct (Q b) eqn:E; [|reflexivity]. rewrite (H b E) in F. discriminate. Qed.
Ltac bytes := let b := fresh "b" in intro b; destruct b; vm_compute; congruence.
Lemma expo_reads : forall e rest, optional exp_part e -> fails numeric rest -> exists o, maybe expo (e ++ rest) = Yes o rest.
Proof.
  intros e rest [->|(b & sg & d & -> & Hb & Hs & Hd & Fd)] F.
  - eexists. apply maybe_no. unfold expo. do 2 apply bind_no. apply sat_no. eapply fails_weak; [exact F|]. bytes.
  - eexists. eapply maybe_is. unfold expo. assert (D : exists l, plus (sat is_digit) (d ++ rest) = Yes l rest) by (apply plus_reads; [exact Hd|exact Fd|eapply fails_weak; [exact F|]; bytes]).
    assert (G : exists o, maybe (sat (one_of [x2b; x2d])) (sg ++ d ++ rest) = Yes o (d ++ rest)).
    { destruct Hs as [->|Hs]; [exists None; apply maybe_no, sat_no|destruct Hs as [-> | ->]; eexists; reflexivity]. destruct d as [|c d]; [contradiction|]. inversion Fd as [|? ? Hc _]; subst. cbn. revert Hc. destruct c; vm_compute; congruence. }
    destruct D as (l & Dl). destruct G as (o & G). erewrite bind_is; [eapply un_is; exact Dl|]. erewrite bind_is; [exact G|]. cbn [app]. rewrite <- app_assoc. apply sat_is. exact Hb.
Qed.
Lemma exp_head : forall e rest, optional exp_part e -> fails numeric rest -> fails (fun b => is_digit b || byte_eqb x2e b) (e ++ rest).
Proof.
  intros e rest [->|(b & sg & d & -> & Hb & _)] F; [cbn; eapply fails_weak; [exact F|]; bytes|]. cbn. revert Hb. destruct b; vm_compute; congruence.
Qed.
Lemma num_reads : forall u rest, number u -> fails numeric rest -> num (u ++ rest) = Yes tt rest.
Proof.
  intros u rest (m & i & f & e & -> & Hm & Hi & Hf & He) F. destruct (expo_reads e rest He F) as (o & Eo). pose proof (exp_head e rest He F) as Fe.
  assert (Ef : exists o, maybe fract (f ++ e ++ rest) = Yes o (e ++ rest)).
  { destruct Hf as [->|(d & -> & Hd & Fd)].
    - eexists. apply maybe_no. unfold fract. apply bind_no. apply str1_no. eapply fails_weak; [exact Fe|]. intros b H; cbn beta; rewrite H. apply orb_true_r.
    - eexists. eapply maybe_is. unfold fract. erewrite bind_is; [|exact (str_app [x2e] (d ++ e ++ rest))]. destruct (plus_reads is_digit d (e ++ rest) Hd Fd) as (l & El); [eapply fails_weak; [exact Fe|]; intros b H; cbn beta; rewrite H; reflexivity|]. eapply un_is. exact El. }
  destruct Ef as (o' & Ef).
  assert (Ff : fails is_digit (f ++ e ++ rest)) by (destruct Hf as [->|(d & -> & _)]; [eapply fails_weak; [exact Fe|]; intros b H; cbn beta; rewrite H; reflexivity|reflexivity]).
  assert (Ei : int (i ++ f ++ e ++ rest) = Yes tt (f ++ e ++ rest)).
  { unfold int. destruct Hi as [|d ds Hd Fd].
    - apply or_yes with (a := tt). apply (str_app [x30]).
    - rewrite or_no; [|apply str1_no; cbn; revert Hd; destruct d; vm_compute; congruence]. eapply un_is. erewrite bind_is; [apply many_reads; [exact Fd|exact Ff]|]. cbn [app]. apply sat_is. exact Hd. }
  assert (Em : exists o, maybe (str [x2d]) (m ++ i ++ f ++ e ++ rest) = Yes o (i ++ f ++ e ++ rest)).
  { destruct Hm as [-> | ->]; eexists.
    - apply maybe_no. apply str1_no. destruct Hi as [|d ds Hd _]; [reflexivity|]. cbn. revert Hd. destruct d; vm_compute; congruence.
    - reflexivity. }
  destruct Em as (o2 & Em). rewrite <- !app_assoc. unfold num. erewrite bind_is; [eapply un_is; exact Eo|]. erewrite bind_is; [exact Ef|]. erewrite bind_is; [exact Ei|exact Em].
Qed.

(** strings *)
Lemma plain_is : forall b t, unescaped b = true -> plain (b :: t) = Yes b t.
Proof. intros b t H. unfold plain, bind, unless, sat, bad. rewrite H. reflexivity. Qed.
Lemma esc_letter : forall b t, peg_letter b = true -> esc (x5c :: b :: t) = Yes tt t.
Proof. intros b t H. unfold esc. erewrite bind_is; [|exact (str_app [x5c] (b :: t))]. apply or_yes. eapply un_is. apply sat_is. exact H. Qed.
Lemma esc_unicode : forall a b c d t, hex a = true -> hex b = true -> hex c = true -> hex d = true -> esc (x5c :: x75 :: a :: b :: c :: d :: t) = Yes tt t.
Proof.
  intros a b c d t Ha Hb Hc Hd. unfold esc. erewrite bind_is; [|exact (str_app [x5c] (x75 :: a :: b :: c :: d :: t))]. rewrite or_no; [|reflexivity].
  unfold uni. erewrite bind_is; [eapply un_is; apply sat_is; exact Hd|]. erewrite bind_is; [apply sat_is; exact Hc|]. erewrite bind_is; [apply sat_is; exact Hb|]. erewrite bind_is; [apply sat_is; exact Ha|]. exact (str_app [x75] _).
Qed.
Lemma esc_plain : forall b t, unescaped b = true -> esc (b :: t) = No.
Proof. intros b t H. unfold esc. apply bind_no. apply str1_no. cbn. revert H. destruct b; vm_compute; congruence. Qed.
Lemma group_no : forall t, plain t = No -> group t = No.
Proof. intros t H. unfold group, plus. do 2 apply bind_no. exact H. Qed.
Definition layers (ps : list byte) (es : list unit) (gs : list (list unit)) (t rest : list byte) : Prop :=
  exists r r2, chain plain ps t r /\ chain esc es r r2 /\ chain group gs r2 rest.
Lemma layers_group : forall ps p es gs t rest, layers (p :: ps) es gs t rest -> exists g, chain group (g :: gs) t rest.
Proof.
  intros ps p es gs t rest (r & r2 & H1 & H2 & H3). exists es. eapply chain_cons; [| |exact H3].
  - unfold group. inversion H1; subst. erewrite bind_is; [apply chain_many; exact H2|]. unfold plus. erewrite bind_is; [apply chain_many; eassumption|eassumption].
  - assert (L : forall A (f : reader A) l t r, chain f l t r -> List.length r <= List.length t) by (clear; intros A f l t r C; induction C; lia). apply L in H2. inversion H1; subst. match goal with H : chain plain ps _ _ |- _ => apply L in H end. lia.
Qed.
Lemma layers_exist : forall l v, chars l v -> forall rest, exists ps es gs, layers ps es gs (v ++ x22 :: rest) (x22 :: rest) /\ (ps = [] -> match l with false :: _ => False | _ => True end) /\ (l = [] -> es = [] /\ gs = []).
Proof.
  intros l v H rest.
  assert (E : forall v' l' t, (exists ps es gs, layers ps es gs (v' ++ x22 :: rest) (x22 :: rest) /\ (ps = [] -> match l' with false :: _ => False | _ => True end) /\ (l' = [] -> es = [] /\ gs = [])) ->
    esc t = Yes tt (v' ++ x22 :: rest) -> plain t = No -> List.length (v' ++ x22 :: rest) < List.length t -> chars l' v' ->
    exists ps es gs, layers ps es gs t (x22 :: rest) /\ (ps = [] -> True) /\ (true :: l' = [] -> es = [] /\ gs = [])).
  { intros v' l' t (ps & es & gs & L & _) He Hp Hl Hc. destruct ps as [|p ps].
    - exists [], (tt :: es), gs. split; [|split; [auto|discriminate]]. destruct L as (r & r2 & H1 & H2 & H3). inversion H1; subst. exists t, r2. split; [apply chain_nil; exact Hp|]. split; [|exact H3]. eapply chain_cons; eassumption.
    - pose proof L as L'. destruct (layers_group _ _ _ _ _ _ L) as (g & G). exists [], [tt], (g :: gs). split; [|split; [auto|discriminate]]. exists t, (v' ++ x22 :: rest). split; [apply chain_nil; exact Hp|]. split; [|exact G]. eapply chain_cons; [exact He|exact Hl|]. apply chain_nil.
      destruct L' as (r & r2 & H1 & _). inversion H1; subst. match goal with H : plain _ = Yes _ _ |- _ => rename H into Hq end. destruct Hc; cbn [app] in *; [discriminate Hq|apply esc_plain; assumption|discriminate Hq|discriminate Hq]. }
  induction H as [|b l u Hb Hc IH|b l u Hb Hc IH|a b c d l u Ha Hb Hc' Hd Hc IH].
  - exists [], [], []. split; [|auto]. exists (x22 :: rest), (x22 :: rest). repeat split; apply chain_nil; reflexivity.
  - destruct IH as (ps & es & gs & (r & r2 & H1 & H2 & H3) & _). exists (b :: ps), es, gs. split; [|split; discriminate]. exists r, r2. split; [|auto]. eapply chain_cons; [apply plain_is; exact Hb| |exact H1]. apply Nat.lt_succ_diag_r.
  - eapply E; [exact IH|apply esc_letter; exact Hb|reflexivity|cbn [app List.length]; lia|exact Hc].
  - eapply E; [exact IH|apply esc_unicode; assumption|reflexivity|cbn [app List.length]; lia|exact Hc].
Qed.
Lemma groups_read : forall l v rest, chars l v -> match l with true :: _ => False | _ => True end -> exists gs, many group (v ++ x22 :: rest) = Yes gs (x22 :: rest).
Proof.
  intros l v rest H A. destruct (layers_exist l v H rest) as (ps & es & gs & L & P1 & P2). destruct l as [|[|] l]; [|contradiction|].
  - inversion H; subst. exists []. apply chain_many, chain_nil. reflexivity.
  - destruct ps as [|p ps]; [destruct (P1 eq_refl)|]. destruct (layers_group _ _ _ _ _ _ L) as (g & G). exists (g :: gs). apply chain_many. exact G.
Qed.
Lemma body_reads : forall l v rest, chars l v -> peg_allowed l -> body (v ++ x22 :: rest) = Yes tt (x22 :: rest).
Proof.
  intros l v rest H A. unfold body.
  assert (E : forall l' v', chars l' v' -> peg_allowed (true :: l') -> forall t, esc t = Yes tt (v' ++ x22 :: rest) -> (maybe esc ;; un (many group)) t = Yes tt (x22 :: rest)).
  { intros l' v' H' A' t Ht. destruct (groups_read l' v' rest H') as (gs & G); [destruct l' as [|[|] l']; auto|]. erewrite bind_is; [eapply un_is; exact G|]. apply maybe_is. exact Ht. }
  destruct H as [|b l u Hb Hc|b l u Hb Hc|a b c d l u Ha Hb Hc' Hd Hc].
  - reflexivity.
  - destruct (groups_read (false :: l) (b :: u) rest (ch_plain _ b l u Hb Hc) Logic.I) as (gs & G). erewrite bind_is; [eapply un_is; exact G|]. apply maybe_no. cbn [app]. apply esc_plain. exact Hb.
  - eapply E; [exact Hc|exact A|]. cbn [app]. apply esc_letter. exact Hb.
  - eapply E; [exact Hc|exact A|]. cbn [app]. apply esc_unicode; assumption.
Qed.
Lemma ws_reads : forall w t, blanks w -> fails peg_blank t -> ws (w ++ t) = Yes w t.
Proof. intros w t. apply many_reads. Qed.
Lemma jstr_reads : forall a u b rest, blanks a -> jstring u -> blanks b -> fails peg_blank rest -> jstr (a ++ u ++ b ++ rest) = Yes tt rest.
Proof.
  intros a u b rest Ha (l & v & Hl & A & ->) Hb F. unfold jstr. erewrite bind_is; [eapply un_is, ws_reads; [exact Hb|exact F]|]. erewrite bind_is; [exact (str_app [x22] (b ++ rest))|].
  erewrite bind_is; [exact (body_reads l v (b ++ rest) Hl A)|]. erewrite bind_is; [|apply ws_reads; [exact Ha|]].
  - replace ((x22 :: v ++ [x22]) ++ b ++ rest) with ([x22] ++ (v ++ x22 :: b ++ rest)) by (cbn; rewrite <- app_assoc; reflexivity). apply str_app.
  - reflexivity.
Qed.

(** values *)
Definition stop (t : list byte) : Prop := match t with b :: _ => one_of [x2c; x5d; x7d] b = true | [] => True end.
Lemma stop_blank : forall t, stop t -> fails peg_blank t.
Proof. intros [|b t] H; [exact Logic.I|]. cbn in *. revert H. destruct b; vm_compute; congruence. Qed.
Lemma stop_numeric : forall w t, blanks w -> stop t -> fails numeric (w ++ t).
Proof. intros [|b w] t Hw H; [destruct t as [|b t]; [exact Logic.I|]; cbn in *; revert H; destruct b; vm_compute; congruence|]. inversion Hw as [|? ? Hb _]; subst. cbn. revert Hb. destruct b; vm_compute; congruence. Qed.
Lemma number_head : forall u, number u -> exists b v, u = b :: v /\ peg_blank b = false.
Proof.
  intros u (m & i & f & e & -> & Hm & Hi & _). destruct Hm as [-> | ->]; [|eexists; eexists; split; [reflexivity|reflexivity]]. destruct Hi as [|d ds Hd _]; (eexists; eexists; split; [reflexivity|]); [reflexivity|]. revert Hd. destruct d; vm_compute; congruence.
Qed.
Lemma value_head : forall u, value u -> exists b v, u = b :: v /\ peg_blank b = false.
Proof. intros u H. destruct H as [u H|u (l & v & _ & _ & ->)| | | | | | |]; [apply number_head; exact H|..]; (eexists; eexists; split; [reflexivity|reflexivity]). Qed.
Definition first_member (J : reader unit) : reader unit := (jstr ;; str [x3a]) ;; J.
Lemma item_is : forall J t, item J (x2c :: t) = first_member J t.
Proof. intros J t. unfold item, first_member. unfold bind at 1 2 3. rewrite (str_app [x2c] t : str [x2c] (x2c :: t) = _). reflexivity. Qed.
Definition val_ok (u : list byte) : Prop := forall n w rest, blanks w -> stop rest -> List.length (u ++ w ++ rest) <= n -> exists c, blanks c /\ val (json n) (u ++ w ++ rest) = Yes tt (c ++ rest).
Definition el_ok (e : list byte) : Prop := forall n rest, stop rest -> List.length (e ++ rest) <= n -> json (S n) (e ++ rest) = Yes tt rest.
Definition mem_ok (m : list byte) : Prop := forall n rest, stop rest -> List.length (m ++ rest) <= n -> first_member (json (S n)) (m ++ rest) = Yes tt rest.
Definition mems_ok (m : list byte) : Prop := forall n rest, List.length (m ++ x7d :: rest) <= n ->
  exists l t, first_member (json (S n)) (m ++ x7d :: rest) = Yes tt t /\ List.length t <= List.length (m ++ x7d :: rest) /\ chain (item (json (S n))) l t (x7d :: rest).
Definition els_ok (m : list byte) : Prop := forall n rest, List.length (m ++ x5d :: rest) <= n ->
  exists l t, json (S n) (m ++ x5d :: rest) = Yes tt t /\ List.length t <= List.length (m ++ x5d :: rest) /\ chain (str [x2c] ;; json (S n)) l t (x5d :: rest).
Scheme value_mind := Induction for Spec_Json.value Sort Prop
with element_mind := Induction for Spec_Json.element Sort Prop
with member_mind := Induction for Spec_Json.member Sort Prop
with members_mind := Induction for Spec_Json.members Sort Prop
with elements_mind := Induction for Spec_Json.elements Sort Prop.
Lemma element_reads : forall e, element e -> el_ok e.
Proof.
  apply (element_mind peg_blank peg_letter peg_allowed (fun u _ => val_ok u) (fun u _ => el_ok u) (fun u _ => mem_ok u) (fun u _ => mems_ok u) (fun u _ => els_ok u)).
  - (* number *) intros u H n w rest Hw Hs _. exists w. split; [exact Hw|]. unfold val. apply or_yes. apply num_reads; [exact H|]. apply stop_numeric; assumption.
  - (* string *) intros u H n w rest Hw Hs _. exists []. split; [constructor|]. pose proof (jstr_reads [] u w rest (Forall_nil _) H Hw (stop_blank _ Hs)) as E. destruct H as (l & v & _ & _ & ->). unfold val. do 3 (rewrite or_no by reflexivity). apply or_yes. exact E.
  - intros n w rest Hw Hs _. exists w. split; [exact Hw|]. reflexivity.
  - intros n w rest Hw Hs _. exists w. split; [exact Hw|]. reflexivity.
  - intros n w rest Hw Hs _. exists w. split; [exact Hw|]. reflexivity.
  - (* empty object *) intros w0 H0 n w rest Hw Hs _. exists w. split; [exact Hw|]. unfold val. cbn [app]. rewrite or_no by reflexivity. apply or_yes. rewrite <- app_assoc. cbn [app]. unfold obj. erewrite bind_is; [exact (str_app [x7d] (w ++ rest))|]. erewrite bind_is; [|exact (str_app [x7b] (w0 ++ x7d :: w ++ rest))].
    assert (Ew : ws (w0 ++ x7d :: w ++ rest) = Yes w0 (x7d :: w ++ rest)) by (apply ws_reads; [exact H0|reflexivity]).
    rewrite or_no; [eapply un_is; exact Ew|]. apply un_no. unfold jstr. do 6 apply bind_no. erewrite bind_is; [|exact Ew]. reflexivity.
  - (* object *) intros u _ IH n w rest Hw Hs L. exists w. split; [exact Hw|]. unfold val. cbn [app] in *. rewrite or_no by reflexivity. apply or_yes. rewrite <- app_assoc in *. cbn [app] in *. unfold obj. erewrite bind_is; [exact (str_app [x7d] (w ++ rest))|]. erewrite bind_is; [|exact (str_app [x7b] (u ++ x7d :: w ++ rest))].
    destruct n as [|n]; [cbn in L; lia|]. destruct (IH n (w ++ rest)) as (l & t & H1 & _ & H3); [cbn in L; lia|]. apply or_yes. eapply un_is. erewrite bind_is; [apply chain_many; exact H3|exact H1].
  - (* empty array *) intros w0 H0 n w rest Hw Hs L. exists w. split; [exact Hw|]. unfold val. cbn [app] in *. rewrite !or_no by reflexivity. apply or_yes. rewrite <- app_assoc in *. cbn [app] in *. unfold arr. erewrite bind_is; [exact (str_app [x5d] (w ++ rest))|]. erewrite bind_is; [|exact (str_app [x5b] (w0 ++ x5d :: w ++ rest))].
    assert (Ew : ws (w0 ++ x5d :: w ++ rest) = Yes w0 (x5d :: w ++ rest)) by (apply ws_reads; [exact H0|reflexivity]).
    rewrite or_no; [eapply un_is; exact Ew|]. apply un_no. destruct n as [|n]; [cbn in L; lia|]. apply bind_no. cbn [json]. unfold json1. apply bind_no. erewrite bind_is; [|exact Ew]. reflexivity.
  - (* array *) intros u _ IH n w rest Hw Hs L. exists w. split; [exact Hw|]. unfold val. cbn [app] in *. do 2 (rewrite or_no by reflexivity). apply or_yes. rewrite <- app_assoc in *. cbn [app] in *. unfold arr. erewrite bind_is; [exact (str_app [x5d] (w ++ rest))|]. erewrite bind_is; [|exact (str_app [x5b] (u ++ x5d :: w ++ rest))].
    destruct n as [|n]; [cbn in L; lia|]. destruct (IH n (w ++ rest)) as (l & t & H1 & _ & H3); [cbn in L; lia|]. apply or_yes. eapply un_is. erewrite bind_is; [apply chain_many; exact H3|exact H1].
  - (* element *) intros w u w' Hw Hu IH Hw' n rest Hs L. rewrite <- !app_assoc in *. destruct (IH n w' rest Hw' Hs) as (c & Hc & E); [rewrite !app_length in *; lia|]. cbn [json]. unfold json1. erewrite bind_is; [eapply un_is, ws_reads; [exact Hc|apply stop_blank; exact Hs]|].
    erewrite bind_is; [exact E|]. apply ws_reads; [exact Hw|]. destruct (value_head u Hu) as (b & v & -> & Hb). exact Hb.
  - (* member *) intros w u w' e Hw Hu Hw' He IH n rest Hs L. unfold first_member. replace ((w ++ u ++ w' ++ x3a :: e) ++ rest) with (w ++ u ++ w' ++ x3a :: e ++ rest) in * by (rewrite <- !app_assoc; reflexivity).
    erewrite bind_is; [apply IH; [exact Hs|rewrite !app_length in L; cbn in L; rewrite app_length; rewrite app_length in L; lia]|]. erewrite bind_is; [exact (str_app [x3a] (e ++ rest))|]. apply jstr_reads; try assumption. reflexivity.
  - intros u _ IH n rest L. exists [], (x7d :: rest). split; [apply IH; [reflexivity|exact L]|]. split; [rewrite app_length; lia|]. apply chain_nil. reflexivity.
  - intros u us _ IH _ IHs n rest L. rewrite <- app_assoc in *. cbn [app] in *. destruct (IHs n rest) as (l & t & H1 & H2 & H3); [rewrite !app_length in *; cbn in *; rewrite app_length in *; cbn in *; lia|].
    exists (tt :: l), (x2c :: us ++ x7d :: rest). split; [apply IH; [reflexivity|exact L]|]. split; [rewrite (app_length u); lia|]. eapply chain_cons; [rewrite item_is; exact H1| |exact H3]. cbn [List.length]. lia.
  - intros u _ IH n rest L. exists [], (x5d :: rest). split; [apply IH; [reflexivity|exact L]|]. split; [rewrite app_length; lia|]. apply chain_nil. reflexivity.
  - intros u us _ IH _ IHs n rest L. rewrite <- app_assoc in *. cbn [app] in *. destruct (IHs n rest) as (l & t & H1 & H2 & H3); [rewrite !app_length in *; cbn in *; rewrite app_length in *; cbn in *; lia|].
    exists (tt :: l), (x2c :: us ++ x5d :: rest). split; [apply IH; [reflexivity|exact L]|]. split; [rewrite (app_length u); lia|]. eapply chain_cons; [erewrite bind_is; [exact H1|exact (str_app [x2c] _)]| |exact H3]. cbn [List.length]. lia.
Qed.
Theorem doc_is : forall t, match doc (S (List.length t)) t with Out => False | No => ~ peg_json t | Yes _ rest => rest = [] /\ peg_json t end.
Proof.
  intro t. pose proof (doc_total t) as T. destruct (doc (S (List.length t)) t) as [| |a rest] eqn:E; [exact (T eq_refl)| |exact (doc_sound _ _ _ _ E)].
  intro H. pose proof (element_reads t H (List.length t) [] Logic.I) as R. rewrite app_nil_r in R. specialize (R (le_n _)). unfold doc in E. erewrite bind_is in E by exact R. discriminate.
Qed.
