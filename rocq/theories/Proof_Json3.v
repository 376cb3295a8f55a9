(** The grammars for JSON, as package re reads them. *)
From Coq Require Import ZArith String.
From Verif Require Import Base Model_Charset Model_Isa Model_Capture Model_Input Model_Code Model_VM Model_Pattern Model_Re Model_Grammars Spec_Peg Spec_Scope Spec_Run Spec_Wf Spec_Re Spec_Grammars Spec_Json Proof_Charset Proof_Re Proof_Readers Proof_Json Proof_Json2 Proof_Grammars.
Local Open Scope nat_scope.

Lemma rules_are : forall text capg l rest, In text [json_peg; json_memo_peg] -> read text = Yes (TGrammar l) rest -> grammar_of capg l = PGrammar (rules text capg) "doc".
Proof.
  assert (Q : forall text capg, In text [json_peg; json_memo_peg] -> match read text with Yes (TGrammar l) _ => match grammar_of capg l with PGrammar _ st => st = "doc"%string | _ => False end | _ => True end).
  { intros text capg [<-|[<-|[]]]; destruct capg; vm_compute; reflexivity. }
  intros text capg l rest Ht H. unfold rules. specialize (Q text capg Ht). rewrite H in *. destruct (grammar_of capg l); try contradiction. rewrite Q. reflexivity.
Qed.
Section J.
Variable s : list byte.
Variable CS : Type.
Variable check : nat -> CS -> list byte -> list byte -> nat -> Z -> Z -> CS * option nat.
Lemma json_start : forall text capg w r w', In text [json_peg; json_memo_peg] -> peg s check [rules text capg] (PNonTerm "doc" None) 0 w r w' -> peg s check [] (PGrammar (rules text capg) "doc") 0 w r w'.
Proof.
  intros text capg w r w' Ht H. inversion H; subst. match goal with H : lookup _ _ = Some (?b, ?e), H' : peg _ _ ?e ?b _ _ _ _ |- _ => rename H into Hl; rename H' into Hp end. cbn [lookup] in Hl. destruct (assoc (rules text capg) "doc") as [b0|] eqn:E; [|discriminate]. injection Hl as <- <-. eapply peg_grammar; [exact E|exact Hp].
Qed.
Lemma json_peg_is : forall text capg w, In text [json_peg; json_memo_peg] ->
  (peg_json s /\ exists ts, peg s check [] (PGrammar (rules text capg) "doc") 0 w (RSucc (List.length s) ts) w) \/
  (~ peg_json s /\ peg s check [] (PGrammar (rules text capg) "doc") 0 w RFail w).
Proof.
  intros text capg w Ht. pose proof (g_doc s CS check text capg Ht (S (List.length s)) 0 w (Nat.le_0_l _)) as H. cbn [skipn] in H. pose proof (doc_is s) as D. destruct (doc (S (List.length s)) s) as [| |a rest]; [contradiction| |].
  - right. split; [exact D|]. apply json_start; assumption.
  - destruct D as [-> D]. left. split; [exact D|]. destruct H as (u & ts & H1 & H2 & _). rewrite app_nil_r in H1. subst u. exists ts. apply json_start; assumption.
Qed.
End J.

(* ---------- the parameters of the language ---------- *)
Section Mono.
Variables (b1 b2 l1 l2 : byte -> bool) (a1 a2 : list bool -> Prop).
Variable Hb : forall b, b1 b = true -> b2 b = true.
Variable Hl : forall b, l1 b = true -> l2 b = true.
Variable Ha : forall l, a1 l -> a2 l.
Lemma chars_mono : forall l u, chars l1 l u -> chars l2 l u.
Proof. intros l u H. induction H; [apply ch_nil|apply ch_plain|apply ch_letter|apply ch_unicode]; auto. Qed.
Lemma jstring_mono : forall u, jstring l1 a1 u -> jstring l2 a2 u.
Proof. intros u (l & v & H & A & ->). exists l, v. auto using chars_mono. Qed.
Lemma blanks_mono : forall w, blanks b1 w -> blanks b2 w.
Proof. intros w H. eapply Forall_impl; [|exact H]. auto. Qed.
Lemma element_mono : forall e, element b1 l1 a1 e -> element b2 l2 a2 e.
Proof.
  apply (element_mind b1 l1 a1 (fun u _ => value b2 l2 a2 u) (fun u _ => element b2 l2 a2 u) (fun u _ => member b2 l2 a2 u) (fun u _ => members b2 l2 a2 u) (fun u _ => elements b2 l2 a2 u)).
  - intros. apply v_number. assumption.
  - intros. apply v_string, jstring_mono. assumption.
  - apply v_true.
  - apply v_false.
  - apply v_null.
  - intros. apply v_object0, blanks_mono. assumption.
  - intros. apply v_object. assumption.
  - intros. apply v_array0, blanks_mono. assumption.
  - intros. apply v_array. assumption.
  - intros. apply e_value; auto using blanks_mono.
  - intros. apply m_pair; auto using blanks_mono, jstring_mono.
  - intros. apply ms_one. assumption.
  - intros. apply ms_more; assumption.
  - intros. apply es_one. assumption.
  - intros. apply es_more; assumption.
Qed.
End Mono.
(** deciding [peg_json] *)
Definition json_check (t : list byte) : bool := match doc (S (List.length t)) t with Yes _ _ => true | _ => false end.
Lemma json_check_ok : forall t, json_check t = true <-> peg_json t.
Proof. intro t. unfold json_check. pose proof (doc_is t) as D. destruct (doc (S (List.length t)) t) as [| |a r]; [contradiction|split; [discriminate|tauto]|tauto]. Qed.
