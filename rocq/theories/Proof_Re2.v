(** Texts for syntax trees: what is written is read again; the definitions of a grammar. *)
From Coq Require Import ZArith String.
From Verif Require Import Base Model_Charset Model_Isa Model_Capture Model_Input Model_Code Model_VM Model_Pattern Model_Re Spec_Peg Spec_Scope Spec_Run Spec_Re Proof_Charset Proof_Eval Proof_Re.
Local Open Scope nat_scope.

(* ---------- definitions ---------- *)
Lemma put_def_assoc : forall k v d x, assoc (put_def k v d) x = if String.eqb k x then Some v else assoc d x.
Proof.
  intros k v d x. induction d as [|[k' v'] d IH]; cbn [put_def assoc]; [reflexivity|]. destruct (String.eqb k' k) eqn:E.
  - apply String.eqb_eq in E. subst k'. cbn [assoc]. destruct (String.eqb k x); reflexivity.
  - cbn [assoc]. rewrite IH. destruct (String.eqb k' x) eqn:E1, (String.eqb k x) eqn:E2; try reflexivity. apply String.eqb_eq in E1, E2. subst. rewrite String.eqb_refl in E. discriminate.
Qed.
Lemma put_def_names : forall k v d, NoDup (names d) -> NoDup (names (put_def k v d)) /\ forall x, In x (names (put_def k v d)) <-> x = k \/ In x (names d).
Proof.
  intros k v d. induction d as [|[k' v'] d IH]; intro N; cbn [put_def].
  - split; [constructor; [intros []|constructor]|]. intro x. cbn. intuition.
  - unfold names in *. cbn [map fst] in N. inversion N as [|? ? N1 N2]; subst. destruct (String.eqb k' k) eqn:E.
    + apply String.eqb_eq in E. subst k'. split; [exact N|]. intro x. cbn. intuition.
    + apply String.eqb_neq in E. destruct (IH N2) as [I1 I2]. cbn [map fst]. split; [constructor; [|exact I1]; rewrite I2; intuition|]. intro x. cbn. rewrite I2. intuition.
Qed.
Lemma put_all_assoc : forall l acc x, assoc (put_all l acc) x = match last_def l x with Some p => Some p | None => assoc acc x end.
Proof.
  unfold last_def. induction l as [|[k v] l IH]; intros acc x; [reflexivity|]. cbn [put_all fold_left fst snd rev]. unfold put_all in IH. rewrite IH, put_def_assoc.
  assert (Q : forall (l : list (string * pattern)), assoc (l ++ [(k, v)]) x = match assoc l x with Some p => Some p | None => if String.eqb k x then Some v else None end).
  { clear. induction l as [|[a b] l IH]; [reflexivity|]. cbn [app assoc]. destruct (String.eqb a x); [reflexivity|exact IH]. }
  rewrite Q. destruct (assoc (rev l) x); [reflexivity|]. destruct (String.eqb k x); reflexivity.
Qed.
Lemma put_all_names : forall l acc, NoDup (names acc) -> NoDup (names (put_all l acc)).
Proof. induction l as [|[k v] l IH]; intros acc N; [exact N|]. cbn [put_all fold_left]. apply IH. apply put_def_names. exact N. Qed.

(* ---------- reading what was written ---------- *)
Inductive chain {A} (f : reader A) : list A -> list byte -> list byte -> Prop :=
| chain_nil : forall rest, f rest = No -> chain f [] rest rest
| chain_cons : forall a l t t' rest, f t = Yes a t' -> List.length t' < List.length t -> chain f l t' rest -> chain f (a :: l) t rest.
Lemma chain_many : forall A (f : reader A) l t rest, chain f l t rest -> many f t = Yes l rest.
Proof.
  intros A f l t rest C. unfold many. assert (Q : forall n, List.length t < n -> many' n f t = Yes l rest); [|apply Q; lia].
  induction C as [rest H|a l t t' rest H Hl C IH]; intros n Hn; (destruct n as [|n]; [lia|]); cbn [many']; rewrite H; [reflexivity|]. rewrite IH by lia. reflexivity.
Qed.
Lemma bind_is : forall A B (f : reader A) (g : A -> reader B) t a t', f t = Yes a t' -> bind f g t = g a t'.
Proof. intros A B f g t a t' H. unfold bind. rewrite H. reflexivity. Qed.
Lemma bind_no : forall A B (f : reader A) (g : A -> reader B) t, f t = No -> bind f g t = No.
Proof. intros A B f g t H. unfold bind. rewrite H. reflexivity. Qed.
Lemma or_no : forall A (f g : reader A) t, f t = No -> orelse f g t = g t.
Proof. intros A f g t H. unfold orelse. rewrite H. reflexivity. Qed.
Lemma or_yes : forall A (f g : reader A) t a r, f t = Yes a r -> orelse f g t = Yes a r.
Proof. intros A f g t a r H. unfold orelse. rewrite H. reflexivity. Qed.
Lemma str_app : forall l t, str l (l ++ t) = Yes tt t.
Proof. induction l as [|b l IH]; intro t; [reflexivity|]. cbn [str app]. unfold bind, sat, is. rewrite (proj2 (byte_eqb_eq b b) eq_refl). apply IH. Qed.
Definition head_not (bad : list byte) (t : list byte) : bool := match t with b :: _ => negb (existsb (byte_eqb b) bad) | [] => true end.
Definition blanks : list byte := [x20; x09; x0a; x0d; x23].
Lemma head_not_in : forall bad b t, head_not bad (b :: t) = true -> forall c, In c bad -> byte_eqb c b = false.
Proof.
  intros bad b t H c Hc. cbn in H. apply negb_true_iff in H. destruct (byte_eqb c b) eqn:E; [|reflexivity]. apply byte_eqb_eq in E. subst c. rewrite <- H. symmetry. apply existsb_exists. exists b. split; [exact Hc|]. apply byte_eqb_eq. reflexivity.
Qed.
Lemma str_no : forall c l bad t, head_not bad t = true -> In c bad -> str (c :: l) t = No.
Proof. intros c l bad t H Hc. destruct t as [|b t]; [reflexivity|]. cbn [str]. unfold bind, sat, is. rewrite (head_not_in _ _ _ H c Hc). reflexivity. Qed.
Lemma spacing_none : forall bad t, head_not bad t = true -> incl blanks bad -> spacing t = Yes tt t.
Proof.
  intros bad t H I. unfold spacing. erewrite bind_is; [reflexivity|]. apply chain_many. apply chain_nil. unfold space, comment, end_of_line.
  assert (Q : forall c l, In c blanks -> str (c :: l) t = No) by (intros c l Hc; eapply str_no; [exact H|apply I; exact Hc]).
  assert (Q0 : sat (fun b => is x20 b || is x09 b) t = No).
  { destruct t as [|b t]; [reflexivity|]. unfold sat, is. rewrite !(head_not_in _ _ _ H) by (apply I; cbn; tauto). reflexivity. }
  rewrite or_no; [apply bind_no; apply Q; cbn; tauto|]. rewrite or_no; [|apply bind_no; exact Q0]. rewrite or_no by (apply Q; cbn; tauto). rewrite or_no by (apply Q; cbn; tauto). apply Q; cbn; tauto.
Qed.
Lemma spacing_one : forall bad t, head_not bad t = true -> incl blanks bad -> spacing (x20 :: t) = Yes tt t.
Proof.
  intros bad t H I. pose proof (spacing_none bad t H I) as N. unfold spacing in *. apply bind_yes in N as (l & t' & N & E). injection E as ->. 
  assert (L : l = [] /\ (space // comment) t = No).
  { unfold many in N. cbn [many'] in N. destruct ((space // comment) t) as [| |x r] eqn:Es; [discriminate|injection N as <-; auto|]. exfalso.
    assert (safe (List.length t) true (space // comment)) as Sf by (apply safe_or; [apply safe_space|apply safe_comment]). pose proof (proj2 (Sf t (le_n _)) x r Es) as Lr. cbn in Lr.
    assert (safe (List.length t) false (many (space // comment))) as Sm by (apply safe_many; exact Sf).
    destruct (many' (List.length t) (space // comment) r) as [| |l' r'] eqn:Em; try discriminate. injection N as <- ->.
    assert (Q : forall n t l r, many' n (space // comment) t = Yes l r -> List.length r <= List.length t).
    { clear. induction n as [|n IH]; intros t l r H; [discriminate|]. cbn [many'] in H. destruct ((space // comment) t) as [| |a u] eqn:E; [discriminate|injection H as _ <-; lia|].
      destruct (many' n (space // comment) u) as [| |l' r'] eqn:E'; try discriminate. injection H as _ <-. apply IH in E'.
      assert (Sf : safe (List.length t) true (space // comment)) by (apply safe_or; [apply safe_space|apply safe_comment]). pose proof (proj2 (Sf t (le_n _)) a u E) as Lr. cbn in Lr. lia. }
    apply Q in Em. lia. }
  destruct L as [-> L]. erewrite bind_is; [reflexivity|]. apply chain_many. eapply chain_cons; [reflexivity|cbn; lia|]. apply chain_nil. exact L.
Qed.
Lemma token_app : forall bad l t, head_not bad t = true -> incl blanks bad -> token l (l ++ t) = Yes tt t.
Proof. intros bad l t H I. unfold token. rewrite (bind_is _ _ _ _ _ _ _ (str_app l t)). eapply spacing_none; eassumption. Qed.
Lemma token_no : forall c l bad t, head_not bad t = true -> In c bad -> token (c :: l) t = No.
Proof. intros c l bad t H Hc. apply bind_no. eapply str_no; eassumption. Qed.

(* names *)
Lemma name_reads : forall x bad t, legal_name x = true -> head_not bad t = true -> incl blanks bad -> identifier (x ++ x20 :: t) = Yes x t.
Proof.
  intros [|b l] bad t H Ht I; [discriminate|]. cbn [legal_name] in H. apply andb_true_iff in H as [Hb Hl]. unfold identifier. cbn [app].
  rewrite (bind_is _ _ _ _ _ b (l ++ x20 :: t)) by (unfold sat; rewrite Hb; reflexivity). rewrite (bind_is _ _ _ _ _ l (x20 :: t)).
  - rewrite (bind_is _ _ _ _ _ tt t) by (eapply spacing_one; eassumption). reflexivity.
  - apply chain_many. clear b Hb. induction l as [|b l IH]; cbn [app]; [apply chain_nil; reflexivity|]. cbn [forallb] in Hl. apply andb_true_iff in Hl as [Hb Hl].
    apply chain_cons with (l ++ x20 :: t); [|cbn; lia|apply IH; exact Hl]. unfold orelse, sat. destruct (letter b); [reflexivity|]. cbn in Hb. rewrite Hb. reflexivity.
Qed.
(* characters *)
Lemma char_reads : forall bad c t, legal_char bad c = true -> gap c t = true -> char (show_char c ++ t) = Yes c t.
Proof.
  intros bad c t H G. destruct c as [b|b|ds]; cbn [show_char app].
  - cbn [legal_char existsb] in H. rewrite negb_orb in H. apply andb_true_iff in H as [H _]. apply negb_true_iff in H. unfold char. rewrite byte_eqb_sym in H.
    assert (N : sat (is x5c) (b :: t) = No) by (unfold sat, is; rewrite H; reflexivity). rewrite !or_no by (apply bind_no; exact N). unfold bind, unless. rewrite N. reflexivity.
  - cbn [legal_char] in H. unfold char. eapply or_yes. unfold bind, sat. change (is x5c x5c) with true. cbv iota. rewrite H. reflexivity.
  - assert (E : forall d, within 48 55 d = true -> escaped d = false) by (intro d; destruct d; intro Hd; try reflexivity; discriminate Hd).
    assert (S1 : forall d l, within 48 55 d = true -> (sat (is x5c) ;; b <- sat escaped ;; ret (CEsc b)) (x5c :: d :: l) = No) by (intros d l Hd; unfold bind, sat; change (is x5c x5c) with true; cbv iota; rewrite (E d Hd); reflexivity).
    assert (W : forall d, within 48 49 d = true -> within 48 50 d = true /\ within 48 55 d = true) by (intro d; destruct d; intro Hd; try discriminate Hd; split; reflexivity).
    unfold char. destruct ds as [|a [|b [|c [|]]]]; try discriminate H; cbn [legal_char] in H.
    + rewrite or_no by (apply S1; exact H). cbn [gap] in G. unfold oct in H. cbn [app]. rewrite or_no.
      * eapply or_yes. unfold bind, octal_digit, maybe, sat. change (is x5c x5c) with true. cbv iota. rewrite H. destruct t as [|d t]; [reflexivity|]. cbn in G. apply negb_true_iff in G. unfold oct in G. rewrite G. reflexivity.
      * unfold bind, octal_digit, sat. change (is x5c x5c) with true. cbv iota. destruct (within 48 50 a); [|reflexivity]. destruct t as [|d t]; [reflexivity|]. cbn in G. apply negb_true_iff in G. unfold oct in G. rewrite G. reflexivity.
    + apply andb_true_iff in H as [Ha Hb]. rewrite or_no by (apply S1; exact Ha). unfold oct in Ha, Hb. cbn [app]. rewrite or_no.
      * eapply or_yes. unfold bind, octal_digit, maybe, sat. change (is x5c x5c) with true. cbv iota. rewrite Ha, Hb. reflexivity.
      * unfold bind, octal_digit, sat. change (is x5c x5c) with true. cbv iota. cbn [gap] in G. destruct (within 48 50 a); [|reflexivity]. rewrite Hb. destruct t as [|d t]; [reflexivity|]. cbn in G. apply negb_true_iff in G. unfold oct in G. rewrite G. reflexivity.
    + apply andb_true_iff in H as [H Hc]. apply andb_true_iff in H as [Ha Hb]. unfold oct in Hb, Hc. destruct (W a Ha) as [W1 W2]. rewrite or_no by (apply S1; exact W2). cbn [app]. eapply or_yes. unfold bind, octal_digit, sat. change (is x5c x5c) with true. cbv iota. rewrite W1, Hb, Hc. reflexivity.
Qed.
Lemma show_char_len : forall bad c, legal_char bad c = true -> 0 < List.length (show_char c).
Proof. intros bad [b|b|ds] H; cbn; lia. Qed.
Lemma unless_no : forall c l t b t', t = b :: t' -> byte_eqb c b = false -> unless (str (c :: l)) t = Yes tt t.
Proof. intros c l t b t' -> H. unfold unless. cbn [str]. unfold bind, sat, is. rewrite H. reflexivity. Qed.
Lemma show_char_head : forall bad c t, legal_char bad c = true -> exists b u, show_char c ++ t = b :: u /\ (forall q, In q bad -> q <> x5c -> byte_eqb q b = false).
Proof.
  intros bad c t H. destruct c as [b|b|ds].
  - exists b, t. split; [reflexivity|]. intros q Hq _. cbn [legal_char existsb] in H. rewrite negb_orb in H. apply andb_true_iff in H as [_ H]. apply (head_not_in bad b t); [exact H|exact Hq].
  - exists x5c, (b :: t). split; [reflexivity|]. intros q _ N. apply byte_eqb_neq. exact N.
  - exists x5c, (ds ++ t). split; [reflexivity|]. intros q _ N. apply byte_eqb_neq. exact N.
Qed.
Lemma gap_app : forall c a b r, a <> [] -> gap c (a ++ r) = gap c (a ++ b).
Proof. intros c a b r N. destruct a as [|x a]; [destruct N; reflexivity|]. reflexivity. Qed.
Lemma lit_reads : forall cs t, legal_lit cs = true -> chain (unless (str [x27]) ;; char) cs (flat_map show_char cs ++ x27 :: t) (x27 :: t).
Proof.
  induction cs as [|c cs IH]; intros t H; cbn [flat_map app].
  - apply chain_nil. reflexivity.
  - cbn [legal_lit] in H. apply andb_true_iff in H as [H Hl]. apply andb_true_iff in H as [Hc Hg]. rewrite <- app_assoc. apply chain_cons with (flat_map show_char cs ++ x27 :: t).
    + destruct (show_char_head _ c (flat_map show_char cs ++ x27 :: t) Hc) as (b & u & E & Q). rewrite (bind_is _ _ _ _ _ tt (show_char c ++ flat_map show_char cs ++ x27 :: t)) by (eapply unless_no; [exact E|apply Q; [cbn; tauto|discriminate]]).
      eapply char_reads; [exact Hc|]. change (x27 :: t) with ([x27] ++ t). rewrite app_assoc, <- Hg. rewrite (gap_app c (flat_map show_char cs ++ [x27]) [] t) by (destruct (flat_map show_char cs); discriminate). rewrite app_nil_r. reflexivity.
    + rewrite (app_length (show_char c)). pose proof (show_char_len _ c Hc). lia.
    + apply IH. exact Hl.
Qed.
Lemma show_range_head : forall r rs t, legal_ranges (r :: rs) = true -> exists b u, show_range r ++ t = b :: u /\ (forall q, In q bad_in_class -> byte_eqb q b = false).
Proof.
  intros [a o] rs t H. cbn [legal_ranges] in H. apply andb_true_iff in H as [H _]. apply andb_true_iff in H as [Ha _].
  assert (Q : forall t, exists b u, show_char a ++ t = b :: u /\ (forall q, In q bad_in_class -> byte_eqb q b = false)).
  { intro t'. destruct (show_char_head _ a t' Ha) as (b & u & E & Q). exists b, u. split; [exact E|]. intros q Hq. apply Q; [exact Hq|]. intros ->. cbn in Hq. intuition discriminate. }
  destruct o as [b|]; cbn [show_range]; [rewrite <- app_assoc|]; apply Q.
Qed.
Lemma ranges_read : forall rs t, legal_ranges rs = true -> chain (unless (str [x5d]) ;; range) rs (flat_map show_range rs ++ x5d :: t) (x5d :: t).
Proof.
  induction rs as [|[a o] rs IH]; intros t H; cbn [flat_map app].
  - apply chain_nil. reflexivity.
  - rewrite <- app_assoc. destruct (show_range_head (a, o) rs (flat_map show_range rs ++ x5d :: t) H) as (b0 & u & E & Q). pose proof H as H'. cbn [legal_ranges] in H. apply andb_true_iff in H as [H Hl]. apply andb_true_iff in H as [Ha Ho].
    set (rest := flat_map show_range rs ++ x5d :: t) in *. assert (Hr : exists c v, rest = c :: v /\ byte_eqb x2d c = false).
    { destruct rs as [|r rs']; [exists x5d, t; split; reflexivity|]. unfold rest. cbn [flat_map]. rewrite <- app_assoc. destruct (show_range_head r rs' (flat_map show_range rs' ++ x5d :: t) Hl) as (c & v & Ec & Qc). exists c, v. split; [exact Ec|]. apply Qc. cbn. tauto. }
    assert (Hg : forall c, gap c (flat_map show_range rs ++ [x5d]) = true -> gap c rest = true).
    { intros c Hc. unfold rest. change (x5d :: t) with ([x5d] ++ t). rewrite app_assoc, <- Hc, (gap_app c (flat_map show_range rs ++ [x5d]) [] t) by (destruct (flat_map show_range rs); discriminate). rewrite app_nil_r. reflexivity. }
    apply chain_cons with rest.
    + rewrite (bind_is _ _ _ _ _ tt (show_range (a, o) ++ rest)) by (eapply unless_no; [exact E|apply Q; cbn; tauto]). unfold range. destruct o as [b|]; cbn [show_range].
      * apply andb_true_iff in Ho as [Hb Hgb]. eapply or_yes. rewrite <- !app_assoc. rewrite (bind_is _ _ _ _ _ a ([x2d] ++ show_char b ++ rest)).
        -- rewrite (bind_is _ _ _ _ _ tt (show_char b ++ rest)) by (apply str_app). rewrite (bind_is _ _ _ _ _ b rest) by (eapply char_reads; [exact Hb|apply Hg; exact Hgb]). reflexivity.
        -- eapply char_reads; [exact Ha|]. destruct a as [?|?|[|? [|? [|? [|]]]]]; try reflexivity. cbn. destruct (within 48 50 b1); reflexivity.
      * assert (Ec : char (show_char a ++ rest) = Yes a rest) by (eapply char_reads; [exact Ha|apply Hg; exact Ho]). rewrite or_no.
        -- rewrite (bind_is _ _ _ _ _ a rest Ec). reflexivity.
        -- rewrite (bind_is _ _ _ _ _ a rest Ec). apply bind_no. destruct Hr as (c & v & -> & Hc). cbn [str]. unfold bind, sat, is. rewrite Hc. reflexivity.
    + rewrite app_length. destruct o; cbn [show_range]; rewrite ?app_length; pose proof (show_char_len _ a Ha); lia.
    + apply IH. exact Hl.
Qed.

(* ---------- expressions ---------- *)
Fixpoint show_alts (l : list rexp) : list byte := match l with [] => [] | [e] => show e | e :: l => show e ++ [x2f] ++ show_alts l end.
Fixpoint show_cat (l : list rexp) : list byte := match l with [] => [] | e :: l => show e ++ show_cat l end.
Fixpoint legal_all (l : list rexp) : Prop := match l with [] => True | e :: l => legal e /\ legal_all l end.
Fixpoint depth (e : rexp) : nat :=
  match e with
  | ROr l | RCat l => S ((fix go (l : list rexp) : nat := match l with [] => 0 | e :: l => Nat.max (depth e) (go l) end) l)
  | RAnd e | RNot e | ROpt e | RStar e | RPlus e | RMemo e | RBrace e => S (depth e)
  | _ => 0
  end.
Fixpoint depth_all (l : list rexp) : nat := match l with [] => 0 | e :: l => Nat.max (depth e) (depth_all l) end.
Section Ind.
Variable P : rexp -> Prop.
Variable Pl : list rexp -> Prop.
Hypothesis Hor : forall l, Pl l -> P (ROr l).
Hypothesis Hcat : forall l, Pl l -> P (RCat l).
Hypothesis Hand : forall e, P e -> P (RAnd e).
Hypothesis Hnot : forall e, P e -> P (RNot e).
Hypothesis Hopt : forall e, P e -> P (ROpt e).
Hypothesis Hstar : forall e, P e -> P (RStar e).
Hypothesis Hplus : forall e, P e -> P (RPlus e).
Hypothesis Hname : forall x, P (RName x).
Hypothesis Hlit : forall cs, P (RLit cs).
Hypothesis Hset : forall neg rs, P (RSet neg rs).
Hypothesis Hmemo : forall e, P e -> P (RMemo e).
Hypothesis Hbrace : forall e, P e -> P (RBrace e).
Hypothesis Hdot : P RDot.
Hypothesis Hnil : Pl [].
Hypothesis Hcons : forall e l, P e -> Pl l -> Pl (e :: l).
Fixpoint rexp_rect' (e : rexp) : P e :=
  let all := (fix all (l : list rexp) : Pl l := match l with [] => Hnil | e :: l => Hcons e l (rexp_rect' e) (all l) end) in
  match e with
  | ROr l => Hor l (all l) | RCat l => Hcat l (all l) | RAnd e => Hand e (rexp_rect' e) | RNot e => Hnot e (rexp_rect' e) | ROpt e => Hopt e (rexp_rect' e)
  | RStar e => Hstar e (rexp_rect' e) | RPlus e => Hplus e (rexp_rect' e) | RName x => Hname x | RLit cs => Hlit cs | RSet n rs => Hset n rs
  | RMemo e => Hmemo e (rexp_rect' e) | RBrace e => Hbrace e (rexp_rect' e) | RDot => Hdot
  end.
End Ind.
Definition stops : list byte := [x20; x09; x0a; x0d; x23; x3c; x3f; x2a; x2b].
Definition starts : list byte := stops ++ [x26; x21; x29; x7d; x2f].
Lemma head_incl : forall a b t, incl a b -> head_not b t = true -> head_not a t = true.
Proof.
  intros a b [|c t] I H; [reflexivity|]. cbn. apply negb_true_iff. destruct (existsb (byte_eqb c) a) eqn:E; [|reflexivity]. apply existsb_exists in E as (x & Hx & Ex). apply byte_eqb_eq in Ex. subst x.
  pose proof (head_not_in _ _ _ H c (I c Hx)) as Q. rewrite (proj2 (byte_eqb_eq c c) eq_refl) in Q. discriminate.
Qed.
Lemma legal_letter : forall x b l, x = b :: l -> legal_name x = true -> letter b = true.
Proof. intros x b l -> H. cbn in H. apply andb_true_iff in H. tauto. Qed.
Lemma letter_start : forall b t, letter b = true -> head_not starts (b :: t) = true.
Proof. intros b t H. destruct b; try reflexivity; discriminate H. Qed.
Lemma show_head : forall e t, legal e -> head_not starts (show e ++ t) = true.
Proof.
  intros e t H. destruct e; try reflexivity. cbn [show legal] in *. destruct x as [|b l]; [discriminate|]. cbn [app]. apply letter_start. eapply legal_letter; [reflexivity|exact H].
Qed.
Lemma show_nonempty : forall e, legal e -> 0 < List.length (show e).
Proof. intros e H. pose proof (show_head e [] H) as _. destruct e; cbn [show]; rewrite ?app_length; cbn [List.length]; lia. Qed.
(** [a] means the same as [b] and the code handles it *)
Definition same (a b : rexp) : Prop := (forall m, denote a m = denote b m) /\ plain a.
Lemma same_all : forall l l', Forall2 same l l' -> forall m, denote_all l m = denote_all l' m.
Proof. intros l l' H. induction H as [|a b l l' [Hab _] H IH]; intro m; [reflexivity|]. cbn [denote_all]. rewrite (Hab m). destruct (denote b m) as [p m1]. rewrite IH. reflexivity. Qed.
Lemma same_plain : forall l l', Forall2 same l l' -> plain_all l.
Proof. intros l l' H. induction H as [|a b l l' [_ Ha] H IH]; [exact Logic.I|split; assumption]. Qed.
Lemma same_single : forall e e', same e' e -> same (ROr [RCat [e']]) e.
Proof. intros e e' [H P]. split; [|repeat split; exact P]. intro m. rewrite denote_or. cbn [denote_all]. rewrite denote_cat. cbn [denote_all]. rewrite (H m). destruct (denote e m). reflexivity. Qed.
(** everything about reading [e] at depth [n] *)
Definition reads (e : rexp) : Prop := legal e -> forall n t, depth e <= n -> head_not [x20; x09; x0a; x0d; x23; x3c] t = true -> exists e', primary (expr n) (show e ++ t) = Yes e' t /\ same e' e.
Lemma blanks_stops : incl blanks stops.
Proof. intros x H. cbn in *. tauto. Qed.
Lemma suffix_reads : forall e, reads e -> legal e -> forall n t, depth e <= n -> head_not stops t = true -> exists e', suffix (expr n) (show e ++ t) = Yes e' t /\ same e' e.
Proof.
  intros e R L n t D H. destruct (R L n t D) as (e' & E & S); [eapply head_incl; [|exact H]; intros x Hx; cbn in *; tauto|]. exists e'. split; [|exact S]. unfold suffix. rewrite (bind_is _ _ _ _ _ e' t E).
  rewrite (bind_is _ _ _ _ _ None t); [reflexivity|]. unfold maybe. rewrite or_no by (apply bind_no; eapply token_no; [exact H|cbn; tauto]). rewrite or_no by (apply bind_no; eapply token_no; [exact H|cbn; tauto]). rewrite bind_no by (eapply token_no; [exact H|cbn; tauto]). reflexivity.
Qed.
Lemma prefix_reads : forall e, reads e -> legal e -> forall n t, depth e <= n -> head_not stops t = true -> exists e', prefix (expr n) (show e ++ t) = Yes e' t /\ same e' e.
Proof.
  intros e R L n t D H. destruct (suffix_reads e R L n t D H) as (e' & E & S). exists e'. split; [|exact S]. unfold prefix. pose proof (show_head e t L) as Hh. rewrite (bind_is _ _ _ _ _ None (show e ++ t)).
  - rewrite (bind_is _ _ _ _ _ e' t E). reflexivity.
  - unfold maybe. rewrite or_no by (apply bind_no; eapply token_no; [exact Hh|cbn; tauto]). rewrite bind_no by (eapply token_no; [exact Hh|cbn; tauto]). reflexivity.
Qed.
Lemma letter_in : forall b, letter b = true -> In b (filter letter (map N2b (map N.of_nat (seq 0 256)))).
Proof. intros b H. apply filter_In. split; [|exact H]. apply in_map_iff. exists (bN b). split; [apply N2b_bN|]. apply in_map_iff. exists (N.to_nat (bN b)). pose proof (bN_lt b). split; [lia|]. apply in_seq. lia. Qed.
(** nothing starts at a closing token, a slash or the end *)
Definition closing (t : list byte) : Prop := match t with [] => True | b :: _ => In b [x29; x7d; x2f] end.
Lemma primary_closing : forall n t, closing t -> primary (expr n) t = No.
Proof. intros n [|b t] H; [reflexivity|]. cbn in H. destruct H as [<-|[<-|[<-|[]]]]; reflexivity. Qed.
Lemma prefix_closing : forall n t, closing t -> prefix (expr n) t = No.
Proof.
  intros n t H. unfold prefix. rewrite (bind_is _ _ _ _ _ None t).
  - apply bind_no. unfold suffix. apply bind_no. apply primary_closing. exact H.
  - destruct t as [|b t]; [reflexivity|]. cbn in H. destruct H as [<-|[<-|[<-|[]]]]; reflexivity.
Qed.
Lemma closing_stops : forall t, closing t -> head_not stops t = true.
Proof. intros [|b t] H; [reflexivity|]. cbn in H. destruct H as [<-|[<-|[<-|[]]]]; reflexivity. Qed.
Lemma starts_stops : forall t, head_not starts t = true -> head_not stops t = true.
Proof. intros t H. eapply head_incl; [|exact H]. apply incl_appl. apply incl_refl. Qed.
Lemma cat_reads : forall l, Forall reads l -> legal_all l -> forall n t, depth_all l <= n -> prefix (expr n) t = No -> head_not stops t = true ->
  exists l', chain (prefix (expr n)) l' (show_cat l ++ t) t /\ Forall2 same l' l.
Proof.
  intros l F. induction F as [|e l R F IH]; intros L n t D C Hs.
  - exists []. split; [apply chain_nil; exact C|constructor].
  - destruct L as [L1 L2]. cbn [depth_all] in D. destruct (IH L2 n t ltac:(lia) C Hs) as (l' & Hl & S). cbn [show_cat]. rewrite <- app_assoc.
    destruct (prefix_reads e R L1 n (show_cat l ++ t) ltac:(lia)) as (e' & E & Se).
    + destruct l as [|e2 l]; [exact Hs|]. cbn [show_cat]. rewrite <- app_assoc. apply starts_stops. apply show_head. exact (proj1 L2).
    + exists (e' :: l'). split; [|constructor; assumption]. eapply chain_cons; [exact E| |exact Hl]. rewrite (app_length (show e)). pose proof (show_nonempty e L1). lia.
Qed.
Lemma seq_reads : forall l, Forall reads l -> legal_all l -> forall n t, depth_all l <= n -> prefix (expr n) t = No -> head_not stops t = true ->
  exists e', sequence (expr n) (show_cat l ++ t) = Yes e' t /\ same e' (RCat l).
Proof.
  intros l F L n t D C Hs. destruct (cat_reads l F L n t D C Hs) as (l' & Hl & S). exists (RCat l'). split.
  - unfold sequence. rewrite (bind_is _ _ _ _ _ l' t) by (apply chain_many; exact Hl). reflexivity.
  - split; [|exact (same_plain _ _ S)]. intro m. rewrite !denote_cat, (same_all _ _ S). reflexivity.
Qed.
Lemma same_cat1 : forall e' e, same e' (RCat [e]) -> same e' e.
Proof. intros e' e [H P]. split; [|exact P]. intro m. rewrite (H m), denote_cat. cbn [denote_all]. destruct (denote e m). reflexivity. Qed.
Fixpoint show_more (l : list rexp) : list byte := match l with [] => [] | e :: l => [x2f] ++ show e ++ show_more l end.
Lemma show_alts_cons : forall e l, show_alts (e :: l) = show e ++ show_more l.
Proof. intros e l. revert e. induction l as [|e2 l IH]; intro e; [cbn; rewrite app_nil_r; reflexivity|]. cbn [show_alts show_more] in *. rewrite IH. reflexivity. Qed.
(** what can follow a sequence: it is no prefix, and no slash *)
Definition ends (n : nat) (t : list byte) : Prop := prefix (expr n) t = No /\ head_not stops t = true /\ head_not [x2f] t = true.
Lemma more_closing : forall l t n, ends n t -> prefix (expr n) (show_more l ++ t) = No /\ head_not stops (show_more l ++ t) = true.
Proof. intros [|e l] t n (C & H & _); [auto|]. split; [apply prefix_closing; cbn; tauto|reflexivity]. Qed.
Lemma more_reads : forall l, Forall reads l -> legal_all l -> forall n t, depth_all l <= n -> ends n t ->
  exists l', chain (token [x2f] ;; sequence (expr n)) l' (show_more l ++ t) t /\ Forall2 same l' l.
Proof.
  intros l F. induction F as [|e l R F IH]; intros L n t D C.
  - exists []. split; [apply chain_nil; apply bind_no; eapply token_no; [exact (proj2 (proj2 C))|cbn; tauto]|constructor].
  - destruct L as [L1 L2]. cbn [depth_all] in D. destruct (IH L2 n t ltac:(lia) C) as (l' & Hl & S). cbn [show_more]. rewrite <- !app_assoc. destruct (more_closing l t n C) as [C1 C2].
    destruct (seq_reads [e] (Forall_cons _ R (Forall_nil _)) (conj L1 Logic.I) n (show_more l ++ t) ltac:(cbn [depth_all]; lia) C1 C2) as (e' & E & Se). cbn [show_cat] in E. rewrite app_nil_r in E.
    exists (e' :: l'). split; [|constructor; [apply same_cat1; exact Se|exact S]]. apply chain_cons with (show_more l ++ t); [|rewrite (app_length [x2f]), (app_length (show e)); cbn [List.length]; lia|exact Hl].
    rewrite (bind_is _ _ _ _ _ tt (show e ++ show_more l ++ t)); [exact E|]. eapply (token_app stops); [apply starts_stops; apply show_head; exact L1|exact blanks_stops].
Qed.
Lemma alts_reads : forall l, Forall reads l -> legal_all l -> forall n t, depth_all l <= n -> ends n t -> exists e', expr (S n) (show_alts l ++ t) = Yes e' t /\ same e' (ROr l).
Proof.
  intros l F L n t D C. cbn [expr]. unfold expression. destruct l as [|e l].
  - cbn [show_alts app]. destruct C as (C1 & C2 & C3). destruct (seq_reads [] (Forall_nil _) Logic.I n t D C1 C2) as (e' & E & S). cbn [show_cat app] in E. rewrite (bind_is _ _ _ _ _ e' t E). exists (ROr [e']). split.
    + rewrite (bind_is _ _ _ _ _ [] t); [reflexivity|]. apply chain_many. apply chain_nil. apply bind_no. eapply token_no; [exact C3|cbn; tauto].
    + destruct S as [S P]. split; [|split; [exact P|exact Logic.I]]. intro m. rewrite denote_or. cbn [denote_all]. rewrite (S m). reflexivity.
  - inversion F as [|? ? F1 F2]; subst. destruct L as [L1 L2]. cbn [depth_all] in D. rewrite show_alts_cons, <- app_assoc. destruct (more_closing l t n C) as [C1 C2].
    destruct (seq_reads [e] (Forall_cons _ F1 (Forall_nil _)) (conj L1 Logic.I) n (show_more l ++ t) ltac:(cbn [depth_all]; lia) C1 C2) as (e' & E & Se). cbn [show_cat] in E. rewrite app_nil_r in E.
    rewrite (bind_is _ _ _ _ _ e' _ E). destruct (more_reads l F2 L2 n t ltac:(lia) C) as (l' & Hl & S). exists (ROr (e' :: l')). split.
    + rewrite (bind_is _ _ _ _ _ l' t) by (apply chain_many; exact Hl). reflexivity.
    + assert (Q : Forall2 same (e' :: l') (e :: l)) by (constructor; [apply same_cat1; exact Se|exact S]). split; [|exact (same_plain _ _ Q)]. intro m. rewrite !denote_or. rewrite (same_all _ _ Q). reflexivity.
Qed.
Lemma cat_expr_reads : forall l, Forall reads l -> legal_all l -> forall n t, depth_all l <= n -> ends n t -> exists e', expr (S n) (show_cat l ++ t) = Yes e' t /\ same e' (RCat l).
Proof.
  intros l F L n t D (C1 & C2 & C3). cbn [expr]. unfold expression. destruct (seq_reads l F L n t D C1 C2) as (e' & E & S). rewrite (bind_is _ _ _ _ _ e' t E). exists (ROr [e']). split.
  - rewrite (bind_is _ _ _ _ _ [] t); [reflexivity|]. apply chain_many. apply chain_nil. apply bind_no. eapply token_no; [exact C3|cbn; tauto].
  - destruct S as [S P]. split; [|split; [exact P|exact Logic.I]]. intro m. rewrite denote_or. cbn [denote_all]. rewrite (S m), denote_cat. destruct (denote_all l m). reflexivity.
Qed.
Lemma closing_ends : forall n b t, In b [x29; x7d] -> ends n (b :: t).
Proof. intros n b t H. split; [apply prefix_closing; cbn in *; tauto|]. split; [apply closing_stops; cbn in *; tauto|]. cbn in H. destruct H as [<-|[<-|[]]]; reflexivity. Qed.
Lemma single_reads : forall e, reads e -> legal e -> forall n t, depth e <= n -> ends n t -> exists e', expr (S n) (show e ++ t) = Yes e' t /\ same e' e.
Proof.
  intros e R L n t D C. destruct (cat_expr_reads [e] (Forall_cons _ R (Forall_nil _)) (conj L Logic.I) n t ltac:(cbn [depth_all]; lia) C) as (e' & E & S). cbn [show_cat] in E. rewrite app_nil_r in E. exists e'. split; [exact E|apply same_cat1; exact S].
Qed.
Definition spaced : list byte := [x20; x09; x0a; x0d; x23; x3c].
Lemma blanks_spaced : incl blanks spaced.
Proof. intros x H. cbn in *. tauto. Qed.
Lemma stops_spaced : forall t, head_not stops t = true -> head_not spaced t = true.
Proof. intros t H. eapply head_incl; [|exact H]. intros x Hx. cbn in *. tauto. Qed.
Lemma one_expr : forall n u t e e', prefix (expr n) (u ++ t) = Yes e' t -> same e' e -> 0 < List.length u -> ends n t -> exists e', expr (S n) (u ++ t) = Yes e' t /\ same e' e.
Proof.
  intros n u t e e' H S L (C1 & C2 & C3). exists (ROr [RCat [e']]). split; [|apply same_single; exact S]. cbn [expr]. unfold expression. rewrite (bind_is _ _ _ _ _ (RCat [e']) t).
  - rewrite (bind_is _ _ _ _ _ [] t); [reflexivity|]. apply chain_many. apply chain_nil. apply bind_no. eapply token_no; [exact C3|cbn; tauto].
  - unfold sequence. rewrite (bind_is _ _ _ _ _ [e'] t); [reflexivity|]. apply chain_many. eapply chain_cons; [exact H|rewrite app_length; lia|apply chain_nil; exact C1].
Qed.
Lemma not_name : forall b t, letter b = false -> identifier (b :: t) = No.
Proof. intros b t H. apply bind_no. unfold sat. rewrite H. reflexivity. Qed.
Lemma paren_reads : forall n inner t e, (exists e', expr n (inner ++ x29 :: t) = Yes e' (x29 :: t) /\ same e' e) -> head_not blanks (inner ++ x29 :: t) = true -> head_not spaced t = true ->
  exists e', primary (expr n) (([x28] ++ inner ++ [x29]) ++ t) = Yes e' t /\ same e' e.
Proof.
  intros n inner t e (e' & E & S) H Ht. exists e'. split; [|exact S]. replace (([x28] ++ inner ++ [x29]) ++ t) with ([x28] ++ (inner ++ x29 :: t)) by (rewrite <- !app_assoc; reflexivity).
  unfold primary. rewrite or_no by (apply bind_no; apply not_name; reflexivity). apply or_yes. rewrite (bind_is _ _ _ _ _ tt (inner ++ x29 :: t)) by (apply (token_app blanks); [exact H|apply incl_refl]).
  rewrite (bind_is _ _ _ _ _ e' (x29 :: t) E). rewrite (bind_is _ _ _ _ _ tt t) by (apply (token_app spaced [x29]); [exact Ht|exact blanks_spaced]). reflexivity.
Qed.
Lemma same_on : forall (f : rexp -> rexp) (c : pattern -> pattern), (forall e m, denote (f e) m = let (p, m) := denote e m in (c p, m)) -> (forall e, plain e -> plain (f e)) -> forall a b, same a b -> same (f a) (f b).
Proof. intros f c H Hp a b [S P]. split; [|apply Hp; exact P]. intro m. rewrite !H, (S m). reflexivity. Qed.
Lemma start_blanks : forall t, head_not starts t = true -> head_not blanks t = true.
Proof. intros t H. eapply head_incl; [|exact H]. intros x Hx. cbn in *. tauto. Qed.
(** a suffix operator *)
Lemma suffix_op : forall (f : rexp -> rexp) b, In (b, f) [(x3f, ROpt); (x2a, RStar); (x2b, RPlus)] -> forall e, reads e -> legal e -> forall n t, depth e <= n -> head_not stops t = true ->
  exists e', prefix (expr n) ((show e ++ [b]) ++ t) = Yes (f e') t /\ same e' e.
Proof.
  intros f b Hf e R L n t D H. rewrite <- app_assoc. cbn [app].
  destruct (R L n (b :: t) D) as (e' & E & S); [cbn in Hf; destruct Hf as [Hf|[Hf|[Hf|[]]]]; injection Hf as <- <-; reflexivity|]. exists e'. split; [|exact S]. unfold prefix.
  pose proof (show_head e (b :: t) L) as Hh. rewrite (bind_is _ _ _ _ _ None (show e ++ b :: t)).
  - rewrite (bind_is _ _ _ _ _ (f e') t); [reflexivity|]. unfold suffix. rewrite (bind_is _ _ _ _ _ e' (b :: t) E). rewrite (bind_is _ _ _ _ _ (Some f) t); [reflexivity|]. unfold maybe.
    assert (T : token [b] (b :: t) = Yes tt t) by (apply (token_app stops [b]); [exact H|exact blanks_stops]).
    cbn in Hf; destruct Hf as [Hf|[Hf|[Hf|[]]]]; injection Hf as <- <-.
    + erewrite or_yes; [reflexivity|]. rewrite (bind_is _ _ _ _ _ _ _ T). reflexivity.
    + rewrite or_no by reflexivity. erewrite or_yes; [reflexivity|]. rewrite (bind_is _ _ _ _ _ _ _ T). reflexivity.
    + rewrite !or_no by reflexivity. rewrite (bind_is _ _ _ _ _ _ _ T). reflexivity.
  - unfold maybe. rewrite or_no by (apply bind_no; eapply token_no; [exact Hh|cbn; tauto]). rewrite bind_no by (eapply token_no; [exact Hh|cbn; tauto]). reflexivity.
Qed.
Lemma prefix_op : forall (f : rexp -> rexp) b, In (b, f) [(x26, RAnd); (x21, RNot)] -> forall e, reads e -> legal e -> forall n t, depth e <= n -> head_not stops t = true ->
  exists e', prefix (expr n) (([b] ++ show e) ++ t) = Yes (f e') t /\ same e' e.
Proof.
  intros f b Hf e R L n t D H. rewrite <- app_assoc. destruct (suffix_reads e R L n t D H) as (e' & E & S). exists e'. split; [|exact S]. unfold prefix. pose proof (show_head e t L) as Hh.
  assert (T : token [b] ([b] ++ show e ++ t) = Yes tt (show e ++ t)) by (apply (token_app starts [b]); [exact Hh|intros x Hx; cbn in *; tauto]). rewrite (bind_is _ _ _ _ _ (Some f) (show e ++ t)).
  - rewrite (bind_is _ _ _ _ _ e' t E). reflexivity.
  - unfold maybe. cbn in Hf; destruct Hf as [Hf|[Hf|[]]]; injection Hf as <- <-.
    + erewrite or_yes; [reflexivity|]. rewrite (bind_is _ _ _ _ _ _ _ T). reflexivity.
    + rewrite or_no by reflexivity. rewrite (bind_is _ _ _ _ _ _ _ T). reflexivity.
Qed.
Lemma head_app : forall bad a b c, a <> [] -> head_not bad (a ++ b) = head_not bad (a ++ c).
Proof. intros bad [|x a] b c H; [destruct H; reflexivity|reflexivity]. Qed.
Lemma legal_char_ok : forall bad c, legal_char bad c = true -> char_ok c.
Proof.
  intros bad [b|b|ds] H; try exact Logic.I. assert (W : forall hi d, within 48 hi d = true -> (bN d - 48 <= hi - 48)%N) by (intros hi d Hd; apply within_is in Hd; lia).
  destruct ds as [|a [|b [|c [|]]]]; try discriminate H; cbn [legal_char] in H; unfold oct in H; cbn [char_ok fold_left].
  - apply W in H. lia.
  - apply andb_true_iff in H as [H1 H2]. apply W in H1, H2. lia.
  - apply andb_true_iff in H as [H H3]. apply andb_true_iff in H as [H1 H2]. apply W in H1, H2, H3. lia.
Qed.
Lemma lit_ok : forall cs, legal_lit cs = true -> Forall char_ok cs.
Proof. induction cs as [|c cs IH]; intro H; [constructor|]. cbn [legal_lit] in H. apply andb_true_iff in H as [H Hl]. apply andb_true_iff in H as [Hc _]. apply Forall_cons; [eapply legal_char_ok; exact Hc|apply IH; exact Hl]. Qed.
Lemma ranges_ok : forall rs, legal_ranges rs = true -> Forall range_ok rs.
Proof.
  induction rs as [|[a o] rs IH]; intro H; [constructor|]. cbn [legal_ranges] in H. apply andb_true_iff in H as [H Hl]. apply andb_true_iff in H as [Ha Ho]. apply Forall_cons; [|apply IH; exact Hl]. split; [eapply legal_char_ok; exact Ha|].
  destruct o as [b|]; [|exact Logic.I]. apply andb_true_iff in Ho as [Hb _]. eapply legal_char_ok. exact Hb.
Qed.
Lemma show_reads : forall e, reads e.
Proof.
  assert (CE : forall n t, ends n (x29 :: t)) by (intros; apply closing_ends; cbn; tauto).
  apply (rexp_rect' reads (Forall reads)).
  - intros l F L n t D Ht. change (show (ROr l)) with ([x28] ++ show_alts l ++ [x29]). change (legal_all l) in L. change (depth (ROr l)) with (S (depth_all l)) in D. destruct n as [|n]; [lia|]. apply paren_reads; [apply alts_reads; [exact F|exact L|lia|apply CE]| |exact Ht].
    destruct l as [|e l]; [reflexivity|]. rewrite show_alts_cons, <- app_assoc. apply start_blanks. apply show_head. exact (proj1 L).
  - intros l F L n t D Ht. change (show (RCat l)) with ([x28] ++ show_cat l ++ [x29]). change (legal_all l) in L. change (depth (RCat l)) with (S (depth_all l)) in D. destruct n as [|n]; [lia|]. apply paren_reads; [apply cat_expr_reads; [exact F|exact L|lia|apply CE]| |exact Ht].
    destruct l as [|e l]; [reflexivity|]. cbn [show_cat]. rewrite <- app_assoc. apply start_blanks. apply show_head. exact (proj1 L).
  - intros e R L n t D Ht. cbn [depth legal] in *. destruct n as [|n]; [lia|]. change (show (RAnd e)) with ([x28] ++ ([x26] ++ show e) ++ [x29]). apply paren_reads; [|reflexivity|exact Ht].
    destruct (prefix_op RAnd x26 ltac:(cbn; tauto) e R L n (x29 :: t) ltac:(lia) eq_refl) as (e' & E & S). eapply one_expr; [exact E|eapply same_on; [reflexivity|intros e0 P0; exact P0|exact S]|cbn; lia|apply CE].
  - intros e R L n t D Ht. cbn [depth legal] in *. destruct n as [|n]; [lia|]. change (show (RNot e)) with ([x28] ++ ([x21] ++ show e) ++ [x29]). apply paren_reads; [|reflexivity|exact Ht].
    destruct (prefix_op RNot x21 ltac:(cbn; tauto) e R L n (x29 :: t) ltac:(lia) eq_refl) as (e' & E & S). eapply one_expr; [exact E|eapply same_on; [reflexivity|intros e0 P0; exact P0|exact S]|cbn; lia|apply CE].
  - intros e R L n t D Ht. cbn [depth legal] in *. destruct n as [|n]; [lia|]. replace (show (ROpt e)) with ([x28] ++ (show e ++ [x3f]) ++ [x29]) by (cbn [show]; rewrite <- app_assoc; reflexivity). apply paren_reads; [| |exact Ht].
    + destruct (suffix_op ROpt x3f ltac:(cbn; tauto) e R L n (x29 :: t) ltac:(lia) eq_refl) as (e' & E & S). eapply one_expr; [exact E|eapply same_on; [reflexivity|intros e0 P0; exact P0|exact S]|rewrite app_length; cbn; lia|apply CE].
    + rewrite <- app_assoc. apply start_blanks. apply show_head. exact L.
  - intros e R L n t D Ht. cbn [depth legal] in *. destruct n as [|n]; [lia|]. replace (show (RStar e)) with ([x28] ++ (show e ++ [x2a]) ++ [x29]) by (cbn [show]; rewrite <- app_assoc; reflexivity). apply paren_reads; [| |exact Ht].
    + destruct (suffix_op RStar x2a ltac:(cbn; tauto) e R L n (x29 :: t) ltac:(lia) eq_refl) as (e' & E & S). eapply one_expr; [exact E|eapply same_on; [reflexivity|intros e0 P0; exact P0|exact S]|rewrite app_length; cbn; lia|apply CE].
    + rewrite <- app_assoc. apply start_blanks. apply show_head. exact L.
  - intros e R L n t D Ht. cbn [depth legal] in *. destruct n as [|n]; [lia|]. replace (show (RPlus e)) with ([x28] ++ (show e ++ [x2b]) ++ [x29]) by (cbn [show]; rewrite <- app_assoc; reflexivity). apply paren_reads; [| |exact Ht].
    + destruct (suffix_op RPlus x2b ltac:(cbn; tauto) e R L n (x29 :: t) ltac:(lia) eq_refl) as (e' & E & S). eapply one_expr; [exact E|eapply same_on; [reflexivity|intros e0 P0; exact P0|exact S]|rewrite app_length; cbn; lia|apply CE].
    + rewrite <- app_assoc. apply start_blanks. apply show_head. exact L.
  - intros x L n t D Ht. cbn [legal] in L. exists (RName x). split; [|split; [intro m; reflexivity|exact Logic.I]]. cbn [show]. rewrite <- app_assoc. cbn [app]. unfold primary. apply or_yes. rewrite (bind_is _ _ _ _ _ x t) by (eapply name_reads; [exact L|exact Ht|exact blanks_spaced]).
    rewrite (bind_is _ _ _ _ _ tt t); [reflexivity|]. unfold unless. rewrite (token_no x3c [x2d] spaced t Ht) by (cbn; tauto). reflexivity.
  - intros cs L n t D Ht. cbn [legal] in L. exists (RLit cs). split; [|split; [intro m; reflexivity|exact (lit_ok cs L)]]. cbn [show]. replace (([x27] ++ flat_map show_char cs ++ [x27]) ++ t) with (x27 :: flat_map show_char cs ++ x27 :: t) by (cbn; rewrite <- app_assoc; reflexivity).
    unfold primary. rewrite or_no by (apply bind_no; apply not_name; reflexivity). rewrite !or_no by reflexivity. apply or_yes. rewrite (bind_is _ _ _ _ _ cs t); [reflexivity|]. unfold literal. apply or_yes. unfold quoted.
    rewrite (bind_is _ _ _ _ _ tt (flat_map show_char cs ++ x27 :: t)) by (apply (str_app [x27])). rewrite (bind_is _ _ _ _ _ cs (x27 :: t)) by (apply chain_many; apply lit_reads; exact L). rewrite (bind_is _ _ _ _ _ tt t) by (apply (str_app [x27])).
    rewrite (bind_is _ _ _ _ _ tt t) by (eapply spacing_none; [exact Ht|exact blanks_spaced]). reflexivity.
  - intros neg rs [L N] n t D Ht. exists (RSet neg rs). split; [|split; [intro m; reflexivity|split; [exact (ranges_ok rs L)|exact N]]]. cbn [show]. set (inner := flat_map show_range rs ++ x5d :: t).
    replace (([x5b] ++ (if neg then [x5e] else []) ++ flat_map show_range rs ++ [x5d]) ++ t) with ([x5b] ++ (if neg then [x5e] else []) ++ inner) by (unfold inner; rewrite <- !app_assoc; reflexivity).
    assert (Hi : head_not bad_in_class inner = true \/ exists t', inner = x5d :: t').
    { unfold inner. destruct rs as [|r rs']; [right; eexists; reflexivity|left]. cbn [flat_map]. rewrite <- app_assoc. destruct (show_range_head r rs' (flat_map show_range rs' ++ x5d :: t) L) as (b & u & -> & Q). cbn [head_not]. apply negb_true_iff.
      destruct (existsb (byte_eqb b) bad_in_class) eqn:Ex; [|reflexivity]. apply existsb_exists in Ex as (q & Hq & Eq). rewrite byte_eqb_sym, (Q q Hq) in Eq. discriminate. }
    assert (Hc : head_not (x5e :: blanks) inner = true).
    { destruct Hi as [Hi|[t' ->]]; [|reflexivity]. eapply head_incl; [|exact Hi]. intros q Hq. cbn in *. tauto. }
    unfold primary. cbn [app]. rewrite or_no by (apply bind_no; apply not_name; reflexivity). rewrite !or_no by reflexivity. apply or_yes. unfold class. rewrite (bind_is _ _ _ _ _ tt ((if neg then [x5e] else []) ++ inner)) by (apply (str_app [x5b])).
    rewrite (bind_is _ _ _ _ _ (if neg then Some tt else None) inner).
    + rewrite (bind_is _ _ _ _ _ rs (x5d :: t)) by (apply chain_many; apply ranges_read; exact L). rewrite (bind_is _ _ _ _ _ tt t) by (apply (str_app [x5d])). rewrite (bind_is _ _ _ _ _ tt t) by (eapply spacing_none; [exact Ht|exact blanks_spaced]). destruct neg; reflexivity.
    + unfold maybe. destruct neg.
      * rewrite (token_app (x5e :: blanks) [x5e] inner Hc) by (apply incl_tl; apply incl_refl). reflexivity.
      * cbn [app]. rewrite (token_no x5e [] (x5e :: blanks) inner Hc) by (cbn; tauto). reflexivity.
  - intros e R L n t D Ht. cbn [depth legal] in *. destruct n as [|n]; [lia|]. destruct (single_reads e R L n (x7d :: x7d :: t) ltac:(lia)) as (e' & E & S); [apply closing_ends; cbn; tauto|].
    exists (RMemo e'). split; [|destruct S as [S P]; split; [|exact P]; intro m; cbn [denote]; rewrite (S m); reflexivity]. cbn [show]. replace (([x7b; x7b] ++ show e ++ [x7d; x7d]) ++ t) with ([x7b; x7b] ++ show e ++ x7d :: x7d :: t) by (rewrite <- !app_assoc; reflexivity).
    unfold primary. rewrite or_no by (apply bind_no; apply not_name; reflexivity). rewrite or_no by reflexivity. apply or_yes.
    rewrite (bind_is _ _ _ _ _ tt (show e ++ x7d :: x7d :: t)) by (apply (token_app starts [x7b; x7b]); [apply show_head; exact L|intros x Hx; cbn in *; tauto]). rewrite (bind_is _ _ _ _ _ e' _ E).
    rewrite (bind_is _ _ _ _ _ tt t) by (apply (token_app spaced [x7d; x7d]); [exact Ht|exact blanks_spaced]). reflexivity.
  - intros e _ [].
  - intros _ n t D Ht. exists RDot. split; [|split; [intro m; reflexivity|exact Logic.I]]. cbn [show app]. unfold primary. rewrite or_no by (apply bind_no; apply not_name; reflexivity). rewrite !or_no by reflexivity. rewrite (bind_is _ _ _ _ _ tt t) by (apply (token_app spaced [x2e]); [exact Ht|exact blanks_spaced]). reflexivity.
  - apply Forall_nil.
  - intros e l R F. apply Forall_cons; assumption.
Qed.

(* ---------- the whole text ---------- *)
Lemma depth_len : forall e, depth e <= List.length (show e).
Proof.
  apply (rexp_rect' (fun e => depth e <= List.length (show e)) (fun l => depth_all l <= List.length (show_alts l) /\ depth_all l <= List.length (show_cat l))).
  - intros l [H _]. change (show (ROr l)) with ([x28] ++ show_alts l ++ [x29]). change (depth (ROr l)) with (S (depth_all l)). rewrite !app_length. cbn [List.length]. lia.
  - intros l [_ H]. change (show (RCat l)) with ([x28] ++ show_cat l ++ [x29]). change (depth (RCat l)) with (S (depth_all l)). rewrite !app_length. cbn [List.length]. lia.
  - intros e H. cbn [show depth]. rewrite !app_length. cbn [List.length]. lia.
  - intros e H. cbn [show depth]. rewrite !app_length. cbn [List.length]. lia.
  - intros e H. cbn [show depth]. rewrite !app_length. cbn [List.length]. lia.
  - intros e H. cbn [show depth]. rewrite !app_length. cbn [List.length]. lia.
  - intros e H. cbn [show depth]. rewrite !app_length. cbn [List.length]. lia.
  - intros x. cbn [depth]. lia.
  - intros cs. cbn [depth]. lia.
  - intros neg rs. cbn [depth]. lia.
  - intros e H. cbn [show depth]. rewrite !app_length. cbn [List.length]. lia.
  - intros e H. cbn [show depth]. rewrite !app_length. cbn [List.length]. lia.
  - cbn. lia.
  - cbn. lia.
  - intros e l H [H1 H2]. rewrite show_alts_cons. cbn [depth_all show_cat]. rewrite !app_length. split; [|lia]. assert (Q : List.length (show_alts l) <= List.length (show_more l)).
    { destruct l as [|e2 l]; [cbn; lia|]. rewrite show_alts_cons. cbn [show_more]. rewrite !app_length. cbn [List.length]. lia. }
    lia.
Qed.
(** a definition cannot be taken for a name in an expression *)
Lemma def_ends : forall n x t, legal_name x = true -> head_not blanks t = true -> ends n (x ++ [x20; x3c; x2d] ++ t).
Proof.
  intros n x t L H. assert (Hh : head_not starts (x ++ [x20; x3c; x2d] ++ t) = true) by (destruct x as [|b l]; [discriminate|]; cbn [app]; apply letter_start; eapply legal_letter; [reflexivity|exact L]).
  split; [|split; [apply starts_stops; exact Hh|eapply head_incl; [|exact Hh]; intros q Hq; cbn in *; tauto]].
  unfold prefix. rewrite (bind_is _ _ _ _ _ None (x ++ [x20; x3c; x2d] ++ t)).
  - apply bind_no. unfold suffix. apply bind_no. unfold primary. rewrite or_no.
    + assert (Q : forall b l, letter b = false -> token (b :: l) (x ++ [x20; x3c; x2d] ++ t) = No).
      { intros b l Hb. destruct x as [|c x]; [discriminate|]. cbn [app]. apply bind_no. cbn [str]. unfold bind, sat, is. destruct (byte_eqb b c) eqn:E; [|reflexivity]. apply byte_eqb_eq in E. subst c. rewrite (legal_letter _ _ _ eq_refl L) in Hb. discriminate. }
      assert (Q' : forall b l, letter b = false -> str (b :: l) (x ++ [x20; x3c; x2d] ++ t) = No).
      { intros b l Hb. destruct x as [|c x]; [discriminate|]. cbn [app]. cbn [str]. unfold bind, sat, is. destruct (byte_eqb b c) eqn:E; [|reflexivity]. apply byte_eqb_eq in E. subst c. rewrite (legal_letter _ _ _ eq_refl L) in Hb. discriminate. }
      rewrite !or_no; try (apply bind_no; apply Q; reflexivity).
      * apply bind_no. apply Q'. reflexivity.
      * apply bind_no. unfold literal. rewrite or_no; apply bind_no; apply Q'; reflexivity.
    + rewrite (bind_is _ _ _ _ _ x ([x3c; x2d] ++ t)) by (apply (name_reads x [x20; x09; x0a; x0d; x23]); [exact L|reflexivity|apply incl_refl]). apply bind_no. unfold unless.
      rewrite (token_app blanks [x3c; x2d] t H (incl_refl _)). reflexivity.
  - unfold maybe. rewrite or_no by (apply bind_no; eapply token_no; [exact Hh|cbn; tauto]). rewrite bind_no by (eapply token_no; [exact Hh|cbn; tauto]). reflexivity.
Qed.
Definition legal_def (d : list byte * rexp) : Prop := legal_name (fst d) = true /\ legal (snd d).
Lemma defs_ends : forall n defs, Forall legal_def defs -> ends n (show_defs defs).
Proof.
  intros n defs F. destruct F as [|[x e] defs [L1 L2] F]; [split; [apply prefix_closing; exact Logic.I|split; reflexivity]|]. cbn [show_defs fst snd] in *. replace (x ++ [x20; x3c; x2d] ++ show e ++ show_defs defs) with (x ++ [x20; x3c; x2d] ++ (show e ++ show_defs defs)) by reflexivity. apply def_ends; [exact L1|apply start_blanks; apply show_head; exact L2].
Qed.
Definition same_def (d' d : list byte * rexp) : Prop := fst d' = fst d /\ same (snd d') (snd d).
Lemma def_reads : forall x e defs n, legal_def (x, e) -> Forall legal_def defs -> depth e <= n ->
  exists e', definition (S n) (show_defs ((x, e) :: defs)) = Yes (x, e') (show_defs defs) /\ same e' e.
Proof.
  intros x e defs n [L1 L2] F D. cbn [fst snd] in *. destruct (single_reads e (show_reads e) L2 n (show_defs defs) D (defs_ends n defs F)) as (e' & E & S). exists e'. split; [|exact S]. cbn [show_defs]. unfold definition.
  rewrite (bind_is _ _ _ _ _ x ([x3c; x2d] ++ show e ++ show_defs defs)) by (apply (name_reads x [x20; x09; x0a; x0d; x23]); [exact L1|reflexivity|apply incl_refl]).
  rewrite (bind_is _ _ _ _ _ tt (show e ++ show_defs defs)) by (apply (token_app blanks); [apply start_blanks; apply show_head; exact L2|apply incl_refl]). rewrite (bind_is _ _ _ _ _ e' _ E). reflexivity.
Qed.
Lemma definition_no : forall n t, head_not spaced t = true -> (forall x r, identifier t = Yes x r -> head_not [x3c] r = true) -> identifier t <> Out -> definition n t = No.
Proof. intros n t _ H N. unfold definition, bind. destruct (identifier t) as [| |x r] eqn:E; [destruct N; reflexivity|reflexivity|]. rewrite (token_no x3c [x2d] [x3c] r (H x r eq_refl)) by (cbn; tauto). reflexivity. Qed.
Lemma defs_read : forall defs n, Forall legal_def defs -> Forall (fun d => depth (snd d) <= n) defs -> exists defs', chain (definition (S n)) defs' (show_defs defs) [] /\ Forall2 same_def defs' defs.
Proof.
  intros defs n F. induction F as [|[x e] defs L F IH]; intro D.
  - exists []. split; [apply chain_nil; reflexivity|constructor].
  - inversion D as [|? ? D1 D2]; subst. destruct (IH D2) as (defs' & C & S). destruct (def_reads x e defs n L F D1) as (e' & E & Se). exists ((x, e') :: defs'). split; [|constructor; [split; [reflexivity|exact Se]|exact S]].
    eapply chain_cons; [exact E| |exact C]. cbn [show_defs]. rewrite !app_length. cbn [List.length]. lia.
Qed.
Lemma same_defs : forall a b, Forall2 same_def a b -> forall m, denote_defs a m = denote_defs b m.
Proof. intros a b H. induction H as [|[x e] [y e'] a b [H1 [H2 _]] H IH]; intro m; [reflexivity|]. cbn [fst snd denote_defs] in *. subst y. rewrite (H2 m). destruct (denote e' m) as [p m1]. rewrite IH. reflexivity. Qed.
Lemma top_expr : forall e, legal e -> exists e', read (show e) = Yes (TExpr e') [] /\ same e' e.
Proof.
  intros e L. destruct (single_reads e (show_reads e) L (List.length (show e)) [] (depth_len e)) as (e' & E & S); [split; [apply prefix_closing; exact Logic.I|split; reflexivity]|]. rewrite app_nil_r in E. exists e'. split; [|exact S].
  unfold read, top. rewrite (bind_is _ _ _ _ _ tt (show e)) by (apply (spacing_none starts); [pose proof (show_head e [] L) as H; rewrite app_nil_r in H; exact H|intros x Hx; cbn in *; tauto]). rewrite (bind_is _ _ _ _ _ (TExpr e') []); [reflexivity|].
  rewrite or_no; [rewrite (bind_is _ _ _ _ _ e' [] E); reflexivity|]. apply bind_no. unfold grammar. apply bind_no. unfold definition, bind.
  destruct (identifier (show e)) as [| |x r] eqn:Ei; [destruct (proj1 (safe_identifier (List.length (show e)) (show e) (le_n _)) Ei)|reflexivity|].
  assert (En : e = RName x /\ r = []).
  { destruct e; try discriminate Ei. cbn [show legal] in *. change (x0 ++ [x20]) with (x0 ++ x20 :: []) in Ei. rewrite (name_reads x0 blanks [] L eq_refl (incl_refl _)) in Ei. injection Ei as <- <-. auto. }
  destruct En as [_ ->]. reflexivity.
Qed.
Lemma top_defs : forall defs, defs <> [] -> Forall legal_def defs -> exists defs', read (show_defs defs) = Yes (TGrammar defs') [] /\ Forall2 same_def defs' defs.
Proof.
  intros defs N F. assert (D : Forall (fun d => depth (snd d) <= List.length (show_defs defs)) defs).
  { clear. induction defs as [|[x e] defs IH]; [constructor|]. constructor; [cbn [snd show_defs]; rewrite !app_length; pose proof (depth_len e); lia|]. eapply Forall_impl; [|exact IH]. intros d H. cbn beta in *. cbn [show_defs]. rewrite !app_length. lia. }
  destruct (defs_read defs _ F D) as (defs' & C & S). exists defs'. split; [|exact S]. unfold read, top. rewrite (bind_is _ _ _ _ _ tt (show_defs defs)) by (apply (spacing_none stops); [exact (proj1 (proj2 (defs_ends 0 defs F)))|exact blanks_stops]).
  rewrite (bind_is _ _ _ _ _ (TGrammar defs') []); [reflexivity|]. apply or_yes. rewrite (bind_is _ _ _ _ _ defs' []); [reflexivity|]. unfold grammar. inversion C as [rest H|d l t t' rest H Hl C']; subst.
  - inversion S; subst. destruct N. reflexivity.
  - rewrite (bind_is _ _ _ _ _ d t' H). rewrite (bind_is _ _ _ _ _ l [] (chain_many _ _ _ _ _ C')). reflexivity.
Qed.

(* ---------- the grammar of the parser ---------- *)
Lemma re_supported : supported re_grammar.
Proof.
  assert (N : NoDup (names re_defs)).
  { cbn [re_defs names map fst]. repeat (apply NoDup_cons; [cbn; intuition discriminate|]). apply NoDup_nil. }
  split; [|split].
  - vm_compute. intuition (try discriminate; auto 50).
  - cbn [unique_defs re_grammar]. split; [exact N|]. vm_compute. repeat split.
  - vm_compute. repeat split.
Qed.
Lemma range_covers : forall rs x b, cs_has (fold_left (fun x r => cs_add x (range_set r)) rs x) b = cs_has x b || existsb (fun r => cs_has (range_set r) b) rs.
Proof. induction rs as [|r rs IH]; intros x b; [rewrite orb_false_r; reflexivity|]. cbn [fold_left existsb]. rewrite IH, cs_add_has, orb_assoc. reflexivity. Qed.
Lemma class_meaning : forall neg rs m, exists c, denote (RSet neg rs) m = (PClass c, m) /\
  forall b, cs_has c b = true <-> (if neg then ~ exists r, In r rs /\ match r with (a, Some c) => (bN (char_value a) <= bN b <= bN (char_value c))%N | (a, None) => b = char_value a end
    else exists r, In r rs /\ match r with (a, Some c) => (bN (char_value a) <= bN b <= bN (char_value c))%N | (a, None) => b = char_value a end).
Proof.
  intros neg rs m. cbn [denote]. set (c := fold_left (fun x r => cs_add x (range_set r)) rs (cs_new [])).
  assert (H : forall b, cs_has c b = true <-> exists r, In r rs /\ match r with (a, Some c) => (bN (char_value a) <= bN b <= bN (char_value c))%N | (a, None) => b = char_value a end).
  { intro b. unfold c. rewrite range_covers, cs_new_has. cbn [existsb orb]. rewrite existsb_exists. split; intros (r & Hr & H); exists r; (split; [exact Hr|]); destruct r as [a [d|]]; cbn [range_set] in *.
    - apply cs_range_in. exact H.
    - apply cs_new_in in H. destruct H as [H|[]]. symmetry. exact H.
    - apply cs_range_in. exact H.
    - apply cs_new_in. left. symmetry. exact H. }
  destruct neg; eexists; (split; [reflexivity|]); intro b; [|apply H]. rewrite cs_compl_in, <- H. destruct (cs_has c b); split; congruence.
Qed.
Lemma same_defs_plain : forall a b, Forall2 same_def a b -> Forall (fun d => plain (snd d)) a.
Proof. intros a b H. induction H as [|d d' a b [_ [_ Hp]] H IH]; constructor; assumption. Qed.
(** the result of the parser, converted *)
Lemma conv_result : forall s CS (check : nat -> CS -> list byte -> list byte -> nat -> Z -> Z -> CS * option nat) capg (cs0 : CS) p rest ts o c m,
  Spec_Peg.peg s check [] re_grammar 0 ([], cs0) (RSucc (List.length s) ts) ([], cs0) -> read s = Yes p rest -> plain_top p ->
  o_ok o = true -> o_capt o = Some c -> flat1 c = ts -> o_errs o = [] ->
  re_compile s capg o m = match p with TExpr e => RePattern (fst (denote e m)) (snd (denote e m)) | TGrammar l => RePattern (put_grammar capg l m) (snd (denote_defs l m)) end.
Proof.
  intros s CS check capg cs0 p rest ts o c m P Hr Hp H2 H4 H5 H6. pose proof (re_parse s CS check capg ([], cs0)) as Q. rewrite Hr in Q. destruct Q as (ts' & Q & _ & (t & Et & Ht)).
  destruct (peg_det _ _ _ _ _ _ _ _ _ _ _ P Q) as [E _]. injection E as <-. unfold re_compile. rewrite H6, H2, H4, H5, Et, (Ht Hp m). destruct p; [destruct (denote e m)|]; reflexivity.
Qed.
Lemma re_compile_expr : forall s CS (check : nat -> CS -> list byte -> list byte -> nat -> Z -> Z -> CS * option nat) capg (cs0 : CS) e rest ts o c m,
  Spec_Peg.peg s check [] re_grammar 0 ([], cs0) (RSucc (List.length s) ts) ([], cs0) -> read s = Yes (TExpr e) rest -> plain e ->
  o_ok o = true -> o_capt o = Some c -> flat1 c = clip None ts -> o_errs o = [] -> re_compile s capg o m = RePattern (fst (denote e m)) (snd (denote e m)).
Proof. intros s CS check capg cs0 e rest ts o c m P Hr Hp H2 H4 H5 H6. exact (conv_result s CS check capg cs0 (TExpr e) rest ts o c m P Hr Hp H2 H4 H5 H6). Qed.
Lemma re_compile_defs : forall s CS (check : nat -> CS -> list byte -> list byte -> nat -> Z -> Z -> CS * option nat) (cs0 : CS) l rest ts o c m,
  Spec_Peg.peg s check [] re_grammar 0 ([], cs0) (RSucc (List.length s) ts) ([], cs0) -> read s = Yes (TGrammar l) rest -> Forall (fun d => plain (snd d)) l ->
  o_ok o = true -> o_capt o = Some c -> flat1 c = clip None ts -> o_errs o = [] ->
  exists x e l' defs, l = (x, e) :: l' /\ NoDup (names defs) /\ (forall y, assoc defs y = last_def (fst (denote_defs l m)) y) /\
      re_compile s false o m = RePattern (PGrammar defs (name x)) (snd (denote_defs l m)) /\
      re_compile s true o m = RePattern (fst (p_cap_grammar (name x) defs)) (snd (denote_defs l m)).
Proof.
  intros s CS check cs0 l rest ts o c m P Hr Hp H2 H4 H5 H6. assert (N : exists x e l', l = (x, e) :: l').
  { unfold read, top in Hr. apply bind_yes in Hr as (x & t1 & _ & Hr). apply bind_yes in Hr as (q & t2 & Hq & Hr). apply bind_yes in Hr as (y & t3 & _ & Hr). injection Hr as -> _. unfold orelse in Hq.
    destruct ((d <- grammar (S (List.length s));; ret (TGrammar d)) t1) as [| |p r] eqn:E; [discriminate| |].
    - apply bind_yes in Hq as (e & t4 & _ & Hq). discriminate.
    - injection Hq as -> ->. apply bind_yes in E as (d & t4 & Hd & E). injection E as -> _. unfold grammar in Hd. apply bind_yes in Hd as ([x' e'] & t5 & _ & Hd). apply bind_yes in Hd as (l' & t6 & _ & Hd). injection Hd as <- _. eauto. }
  destruct N as (x & e & l' & E). exists x, e, l', (put_all (fst (denote_defs l m)) []). split; [exact E|]. split; [apply put_all_names; constructor|]. split.
  - intro y. rewrite put_all_assoc. destruct (last_def (fst (denote_defs l m)) y); reflexivity.
  - rewrite !(conv_result s CS check _ cs0 (TGrammar l) rest ts o c m P Hr Hp H2 H4 H5 H6). unfold put_grammar. subst l. split; reflexivity.
Qed.
