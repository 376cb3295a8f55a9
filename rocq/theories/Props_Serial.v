(** Property C40: serialization of compiled code. *)
From Coq Require Import Permutation Ascii String.
From Verif Require Import Base Model_Charset Model_Isa Model_Capture Model_Code Model_VM Model_Pattern Model_Rxconv Model_Checker Model_Serial Spec_Serial Proof_Charset Proof_Serial.
Local Open Scope nat_scope.
Local Open Scope string_scope.

(** C40: FromJson gives back, without an error, the code that ToJson wrote if and only if the program has
    no checker and its error messages are valid UTF-8. *)
Theorem C40_json : forall p c obj, encode p = Some c -> (forall s, has_set p s -> cs_wf s) ->
  ((exists j, to_json (with_objects obj c) = Some j /\ from_json j = (with_objects obj c, false))
   <-> (forall k, ~ has_check p k) /\ (forall m, has_msg p m -> valid_utf8 (bytes_of m))).
Proof. exact json_iff. Qed.
Print Assumptions C40_json.

(** FromBytes gives back the code that ToBytes wrote when all checkers are maps, whatever the order in
    which the maps are written. *)
Theorem C40_bytes_partial : forall ord ord', (forall l, Permutation (ord l) l) -> forall p c obj, encode p = Some c ->
  (forall k, has_check p k -> exists ks, obj k = OMap ks) ->
  exists g c', to_gob ord ord' (with_objects obj c) = Some g /\ from_gob g = Some c' /\ same_code c' (with_objects obj c).
Proof. exact gob_ok. Qed.
Print Assumptions C40_bytes_partial.
(** A program with a back reference can be written but not read; one with a checker of another type
    cannot be written. *)
Theorem C40_backref : forall ord ord' p c obj k s g, encode p = Some c -> has_check p k -> obj k = ORef s ->
  to_gob ord ord' (with_objects obj c) = Some g -> from_gob g = None.
Proof. exact gob_ref. Qed.
Print Assumptions C40_backref.
Theorem C40_user : forall ord ord' p c obj k j, encode p = Some c -> has_check p k -> obj k = OUser j ->
  to_gob ord ord' (with_objects obj c) = None.
Proof. exact gob_user. Qed.
Print Assumptions C40_user.

(** The claim fails for patterns that compile: a back reference (through both forms), an error message
    that is not valid UTF-8 (through JSON, without any error). *)
Definition program_of (p : pattern) : program := match compile 100 50 p (CState 0 0) with COk c _ => c | _ => [] end.
Definition code_of (p : pattern) : code := match encode (program_of p) with Some c => c | None => Code [] [] [] [] end.
Definition ref_use : pattern := PSeq (PCheck (PLit [x61]) 0 7 0) (PCheck (PLit []) 0 7 1).
Definition bad_msg : pattern := PError (string_of_list_byte [x61; xff]) None.
Theorem C40_refuted :
  (exists p c g j, encode (program_of p) = Some c /\
     to_gob (fun l => l) (fun l => l) (with_objects (fun _ => ORef []) c) = Some g /\ from_gob g = None /\
     to_json (with_objects (fun _ => ORef []) c) = Some j /\ snd (from_json j) = true /\
     Forall (eq None) (g_checkers (fst (from_json j)))) /\
  (exists p c j c', encode (program_of p) = Some c /\
     to_json (with_objects (fun _ => ORef []) c) = Some j /\ from_json j = (c', false) /\
     g_errors c' <> map bytes_of (c_errors c)).
Proof.
  split.
  - exists ref_use, (code_of ref_use). do 2 eexists. repeat (split; [vm_compute; reflexivity|]). vm_compute. repeat constructor.
  - exists bad_msg, (code_of bad_msg). do 2 eexists. repeat (split; [vm_compute; reflexivity|]). vm_compute. discriminate.
Qed.
Print Assumptions C40_refuted.

(** a pattern with a set, a label and a message, written and read *)
Definition words : pattern := PStar (PAlt (PClass (cs_range "a"%byte "z"%byte)) (PError "a word is missing" None)).
Example words_ok : encode (program_of words) = Some (code_of words) /\ c_sets (code_of words) <> [] /\ c_errors (code_of words) <> [] /\
  (forall s, has_set (program_of words) s -> cs_wf s) /\ (forall k, ~ has_check (program_of words) k) /\
  (forall m, has_msg (program_of words) m -> valid_utf8 (bytes_of m)).
Proof.
  split; [vm_compute; reflexivity|]. split; [vm_compute; discriminate|]. split; [vm_compute; discriminate|].
  set (p := program_of words). vm_compute in p. split; [|split].
  - intros s (i & I & E). subst p. repeat (destruct I as [<-|I]; [first [contradiction|subst s; repeat split; vm_compute; reflexivity]|]). destruct I.
  - intros k I. subst p. repeat (destruct I as [I|I]; [discriminate|]). destruct I.
  - intros m I. subst p. apply coerce_id. repeat (destruct I as [I|I]; [try discriminate; injection I as <-; vm_compute; reflexivity|]). destruct I.
Qed.
Example words_json : match to_json (with_objects (fun _ => ORef []) (code_of words)) with
  | Some j => from_json j = (with_objects (fun _ => ORef []) (code_of words), false) | None => False end.
Proof. vm_compute. reflexivity. Qed.
(** a program with a map, written in the other order *)
Definition keyword : pattern := PCheck (PPlus (PClass (cs_range "a"%byte "z"%byte))) 0 0 0.
Example keyword_ok : encode (program_of keyword) = Some (code_of keyword) /\ c_checkers (code_of keyword) = [0] /\
  match to_gob (@rev _) (@rev _) (with_objects (fun _ => OMap [[x61]; [x62; xff]]) (code_of keyword)) with
  | Some g => match from_gob g with Some c => g_checkers c = [Some (OMap [[x62; xff]; [x61]])] | None => False end
  | None => False end.
Proof. split; [vm_compute; reflexivity|]. split; vm_compute; reflexivity. Qed.
