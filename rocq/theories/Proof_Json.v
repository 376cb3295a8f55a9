(** What grammars/json.peg recognises. *)
From Coq Require Import ZArith String.
From Verif Require Import Base Model_Charset Model_Isa Model_Capture Model_Pattern Model_Re Model_Grammars Spec_Peg Spec_Re Spec_Grammars Spec_Json Proof_Charset Proof_Re Proof_Re2 Proof_Readers.
Local Open Scope nat_scope.

(* ---------- the grammar as functions on texts ---------- *)
Definition un {A} (f : reader A) : reader unit := f ;; ret tt.
Definition plus {A} (f : reader A) : reader (list A) := f ;; many f.
Definition ws : reader (list byte) := many (sat peg_blank).
Definition uni : reader unit := (((str [x75] ;; sat hex) ;; sat hex) ;; sat hex) ;; un (sat hex).
Definition esc : reader unit := str [x5c] ;; (un (sat peg_letter) // uni).
Definition bad (b : byte) : bool := negb (unescaped b).
Definition plain : reader byte := unless (sat bad) ;; any.
Definition group : reader (list unit) := plus plain ;; many esc.
Definition body : reader unit := maybe esc ;; un (many group).
Definition jstr : reader unit := (((ws ;; str [x22]) ;; body) ;; str [x22]) ;; un ws.
Definition digit : reader byte := sat is_digit.
Definition int : reader unit := str [x30] // un (sat (between 49 57) ;; many digit).
Definition fract : reader unit := str [x2e] ;; un (plus digit).
Definition expo : reader unit := (sat (one_of [x65; x45]) ;; maybe (sat (one_of [x2b; x2d]))) ;; un (plus digit).
Definition num : reader unit := ((maybe (str [x2d]) ;; int) ;; maybe fract) ;; un (maybe expo).
Section Rec.
Variable J : reader unit.
Definition item : reader unit := ((str [x2c] ;; jstr) ;; str [x3a]) ;; J.
Definition obj : reader unit := (str [x7b] ;; (un (((jstr ;; str [x3a]) ;; J) ;; many item) // un ws)) ;; str [x7d].
Definition arr : reader unit := (str [x5b] ;; (un (J ;; many (str [x2c] ;; J)) // un ws)) ;; str [x5d].
Definition val : reader unit := num // obj // arr // jstr // str [x74; x72; x75; x65] // str [x66; x61; x6c; x73; x65] // str [x6e; x75; x6c; x6c].
Definition json1 : reader unit := (ws ;; val) ;; un ws.
End Rec.
Fixpoint json (n : nat) : reader unit := match n with O => fun _ => Out | S n => json1 (json n) end.
Definition doc (n : nat) : reader unit := json n ;; unless any.

(* ---------- the rules of the grammars follow these functions ---------- *)
Definition rules (text : list byte) (capg : bool) : list (string * pattern) :=
  match read text with Yes (TGrammar l) _ => match grammar_of capg l with PGrammar d _ => d | _ => [] end | _ => [] end.
Ltac step := lazymatch goal with
  | |- Proof_Readers.ag _ _ _ _ (PCap _ _) _ => apply ag_cap
  | |- Proof_Readers.ag _ _ _ _ (PMemo _ _) _ => apply ag_memo
  | |- Proof_Readers.ag _ _ _ _ _ (un _) => apply ag_unit
  | |- Proof_Readers.ag _ _ _ _ (PNonTerm _ _) _ => eassumption
  | |- Proof_Readers.ag _ _ _ _ (PStar _) _ => apply ag_many
  | |- Proof_Readers.ag _ _ _ _ (PPlus _) _ => apply ag_plus
  | |- Proof_Readers.ag _ _ _ _ (POpt _) _ => apply ag_maybe
  | |- Proof_Readers.ag _ _ _ _ (PNot _) _ => apply ag_unless
  | |- Proof_Readers.ag _ _ _ _ (PSeq _ _) _ => apply ag_seq
  | |- Proof_Readers.ag _ _ _ _ (PAlt _ _) _ => apply ag_or
  | |- Proof_Readers.ag _ _ _ _ (PLit _) _ => apply ag_str
  | |- Proof_Readers.ag _ _ _ _ (PDot _) _ => apply ag_any
  | |- Proof_Readers.ag _ _ _ _ (PClass _) _ => apply ag_sat; let b := fresh in intro b; destruct b; vm_compute; reflexivity
  end.
Ltac rule := eapply ag_nt; [vm_compute; reflexivity|].
Section Ag.
Variable s : list byte.
Variable CS : Type.
Variable check : nat -> CS -> list byte -> list byte -> nat -> Z -> Z -> CS * option nat.
Variable text : list byte.
Variable capg : bool.
Variable Ht : In text [json_peg; json_memo_peg].
Notation R := (rules text capg).
Notation ag x f := (Proof_Readers.ag R s CS check (PNonTerm x%string None) f).
Ltac start := destruct Ht as [<-|[<-|[]]]; destruct capg.
Lemma g_ws : ag "S_" ws.
Proof. start. all: unfold ws; rule; repeat step. Qed.
Lemma g_uni : ag "UnicodeEscape" uni.
Proof. start. all: unfold uni; rule; repeat step. Qed.
Lemma g_esc : ag "Escape" esc.
Proof. pose proof g_uni. start. all: unfold esc; rule; repeat step. Qed.
Lemma g_body : ag "StringBody" body.
Proof. pose proof g_esc. start. all: unfold body, group, plain; rule; repeat step. Qed.
Lemma g_str : ag "String" jstr.
Proof. pose proof g_ws. pose proof g_body. start. all: unfold jstr; rule; repeat step. Qed.
Lemma g_minus : ag "Minus" (str [x2d]).
Proof. start. all: rule; repeat step. Qed.
Lemma g_int : ag "IntPart" int.
Proof. start. all: unfold int; rule; repeat step. Qed.
Lemma g_fract : ag "FractPart" fract.
Proof. start. all: unfold fract; rule; repeat step. Qed.
Lemma g_exp : ag "ExpPart" expo.
Proof. start. all: unfold expo; rule; repeat step. Qed.
Lemma g_num : ag "Number" num.
Proof. pose proof g_minus. pose proof g_int. pose proof g_fract. pose proof g_exp. start. all: unfold num; rule; repeat step. Qed.
Lemma g_true : ag "True" (str [x74; x72; x75; x65]).
Proof. start. all: rule; repeat step. Qed.
Lemma g_false : ag "False" (str [x66; x61; x6c; x73; x65]).
Proof. start. all: rule; repeat step. Qed.
Lemma g_null : ag "Null" (str [x6e; x75; x6c; x6c]).
Proof. start. all: rule; repeat step. Qed.
Lemma g_obj : forall J, ag "JSON" J -> ag "Object" (obj J).
Proof. intros J HJ. pose proof g_ws. pose proof g_str. start. all: unfold obj, item; rule; repeat step. Qed.
Lemma g_arr : forall J, ag "JSON" J -> ag "Array" (arr J).
Proof. intros J HJ. pose proof g_ws. start. all: unfold arr; rule; repeat step. Qed.
Lemma g_json1 : forall J, ag "JSON" J -> ag "JSON" (json1 J).
Proof.
  intros J HJ. pose proof g_ws as H1. pose proof g_num as H2. pose proof (g_obj J HJ) as H3. pose proof (g_arr J HJ) as H4. pose proof g_str as H5. pose proof g_true as H6. pose proof g_false as H7. pose proof g_null as H8. clear HJ.
  start. all: unfold json1, val; rule; repeat step.
Qed.
Lemma g_json : forall n, ag "JSON" (json n).
Proof. induction n as [|n IH]; [intros i w L; exact Logic.I|]. apply g_json1. exact IH. Qed.
Lemma g_doc : forall n, ag "doc" (doc n).
Proof. intro n. pose proof (g_json n). start. all: unfold doc; rule; repeat step. Qed.
End Ag.
