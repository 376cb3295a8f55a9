(** Property C56: the text of a capture. *)
From Coq Require Import String.
From Verif Require Import Base Model_Charset Model_Isa Model_Capture Model_Input Model_Code Model_Table Model_VM Model_Pattern
  Spec_Peg Spec_Run Model_Listing Model_CapString Spec_CapString Proof_CapString.
Local Open Scope list_scope.
Local Open Scope nat_scope.

(** C56: captures have the same text exactly if they have the same identifiers, nested in the same way, with
    the internal nodes *)
Theorem C56_shape : forall c d : capture, cap_string c = cap_string d <-> shape c = shape d.
Proof. exact p_shape. Qed.
Print Assumptions C56_shape.

(** C56: for captures without internal nodes it is the tree that a user sees *)
Theorem C56_solid_partial : forall c d : capture, solid c -> solid d ->
  (cap_string c = cap_string d <-> map bare (flat1 c) = map bare (flat1 d)).
Proof. exact p_solid. Qed.
Print Assumptions C56_solid_partial.

Definition ex_cap (n : nat) : capture :=
  Capture false 1 0 9 [Capture false (-2) n 2 [Capture false 40 n 1 []; Capture false 41 n 1 []]; Capture false 0 5 n []].
Example ex_text : cap_string (ex_cap 3) = lit "{1, [{-2, [{40, []}, {41, []}]}, {0, []}]}" /\
  solid (ex_cap 3) /\ cap_string (ex_cap 3) = cap_string (ex_cap 4) /\ flat1 (ex_cap 3) <> flat1 (ex_cap 4).
Proof. split; [vm_compute; reflexivity|]. split; [repeat constructor|]. split; [vm_compute; reflexivity|vm_compute; discriminate]. Qed.

Definition no_check (k : nat) (cs : unit) (m s : list byte) (i : nat) (id fl : Z) : unit * option nat := (cs, None).
(** letters, each a capture that is remembered *)
Definition letters : pattern := PStar (PMemo (PCap (PLit [x61]) 3) 1).
Definition letters_code : code :=
  match compile 100 50 letters (CState 0 2) with COk c _ => match encode c with Some k => k | None => Code [] [] [] [] end | _ => Code [] [] [] [] end.
Definition parse (t : ttable) (n : nat) : option (capture * ttable) :=
  match vm_exec 4 (tree_table 0) no_check None 500 letters_code (repeat x61 n) t tt with
  | Some (ROk o st) => match o_capt o with Some c => Some (c, m_tbl st) | None => None end
  | _ => None
  end.

(** The internal nodes are shown, as nodes with the identifier 0, so the text of a result depends on the
    history: after five letters have been parsed and a sixth has been typed before them, the result has the same
    captures as that of a first parse of the six letters, and another text. *)
Theorem C56_history_refuted : exists first c t again c1 t1 c2 t2,
  parse tt_new 5 = Some (first, t) /\ again = tt_edit t 0 0 1 /\
  parse again 6 = Some (c1, t1) /\ parse tt_new 6 = Some (c2, t2) /\
  flat1 c1 = c /\ flat1 c2 = c /\ List.length c = 6 /\ cap_string c1 <> cap_string c2.
Proof.
  do 8 eexists. split; [vm_compute; reflexivity|]. split; [reflexivity|]. split; [vm_compute; reflexivity|].
  split; [vm_compute; reflexivity|]. split; [reflexivity|]. split; [vm_compute; reflexivity|]. split; [vm_compute; reflexivity|].
  vm_compute. discriminate.
Qed.
Print Assumptions C56_history_refuted.

(** C56: nor does a text tell what a user sees: an internal node looks like a capture with the identifier 0 *)
Theorem C56_internal_refuted : exists c d : capture, cap_string c = cap_string d /\ map bare (flat1 c) <> map bare (flat1 d).
Proof. exists (new_dummy 0 1 [new_node 3 0 1 []]), (new_node 0 0 1 [new_node 3 0 1 []]). split; [vm_compute; reflexivity|vm_compute; discriminate]. Qed.
Print Assumptions C56_internal_refuted.
