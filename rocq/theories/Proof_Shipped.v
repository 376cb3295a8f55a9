(** The shipped grammars pass the checks.  The texts are read once for each check. *)
From Verif Require Import Base Model_Grammars Spec_Grammars Spec_GrammarMemo Spec_Thresholds.

Lemma shipped_light : Forall (fun s => light_check s = true) shipped.
Proof. unfold shipped. repeat (apply Forall_cons; [vm_compute; reflexivity|]). apply Forall_nil. Qed.
Lemma shipped_memo : Forall (fun s => memo_text s = true) shipped.
Proof. unfold shipped. repeat (apply Forall_cons; [vm_compute; reflexivity|]). apply Forall_nil. Qed.
Lemma shipped_fits : Forall (fun s => text_fits_any 100 100 s = true) shipped.
Proof. unfold shipped. repeat (apply Forall_cons; [vm_compute; reflexivity|]). apply Forall_nil. Qed.
