(** Properties C01 and C02: character sets. *)
From Verif Require Import Base Model_Charset Proof_Charset.
Local Open Scope N_scope.

(** C01: New(chars) accepts exactly the listed bytes. *)
Theorem C01_new : forall (chars : list byte) (b : byte),
  cs_has (cs_new chars) b = true <-> In b chars.
Proof. exact cs_new_in. Qed.
Print Assumptions C01_new.

(** C01: Range(lo,hi) accepts exactly lo..hi inclusive. *)
Theorem C01_range : forall lo hi b : byte,
  cs_has (cs_range lo hi) b = true <-> bN lo <= bN b <= bN hi.
Proof. exact cs_range_in. Qed.
Print Assumptions C01_range.

(** C01: Complement, Add, Sub are the set operations. No hypothesis on the sets. *)
Theorem C01_complement : forall c b, cs_has (cs_compl c) b = true <-> cs_has c b = false.
Proof. exact cs_compl_in. Qed.
Print Assumptions C01_complement.

Theorem C01_add : forall c d b, cs_has (cs_add c d) b = true <-> cs_has c b = true \/ cs_has d b = true.
Proof. exact cs_add_in. Qed.
Print Assumptions C01_add.

Theorem C01_sub : forall c d b, cs_has (cs_sub c d) b = true <-> cs_has c b = true /\ cs_has d b = false.
Proof. exact cs_sub_in. Qed.
Print Assumptions C01_sub.

(** C01: two sets of 64-bit words accepting the same bytes are equal, so Go's == on sets
    (used to share sets in the encoded program) is equality of the accepted bytes. *)
Theorem C01_extensional : forall c d, cs_wf c -> cs_wf d ->
  (cs_eqb c d = true <-> forall b, cs_has c b = cs_has d b).
Proof. exact cs_eqb_ext. Qed.
Print Assumptions C01_extensional.

(** every set built through the API consists of 64-bit words *)
Theorem C01_wf : (forall l, cs_wf (cs_new l)) /\ (forall a b, cs_wf (cs_range a b)) /\
  (forall c, cs_wf c -> cs_wf (cs_compl c)) /\
  (forall c d, cs_wf c -> cs_wf d -> cs_wf (cs_add c d)) /\
  (forall c d, cs_wf c -> cs_wf d -> cs_wf (cs_sub c d)).
Proof. exact cs_all_wf. Qed.
Print Assumptions C01_wf.

(** C02: Size is the number of accepted bytes. *)
Theorem C02_size : forall c, cs_size c = length (filter (cs_has c) all_bytes).
Proof. exact cs_size_count. Qed.
Print Assumptions C02_size.

(** [all_bytes] lists every byte exactly once. *)
Theorem C02_all_bytes : NoDup all_bytes /\ forall b, In b all_bytes.
Proof. exact all_bytes_ok. Qed.
Print Assumptions C02_all_bytes.

(** C02: IsSmall means no byte >= 128 is accepted. *)
Theorem C02_is_small : forall c, cs_wf c ->
  (cs_is_small c = true <-> forall b, 128 <= bN b -> cs_has c b = false).
Proof. exact cs_is_small_spec. Qed.
Print Assumptions C02_is_small.

(** C02: the small set agrees with the set it came from on every byte below 128. *)
Theorem C02_small_has : forall c b, bN b < 128 -> ss_has (cs_small c) b = Some (cs_has c b).
Proof. exact ss_has_agree. Qed.
Print Assumptions C02_small_has.

Theorem C02_small_size : forall c, cs_is_small c = true -> ss_size (cs_small c) = cs_size c.
Proof. exact ss_size_agree. Qed.
Print Assumptions C02_small_size.

(** non-vacuity: sets crossing the word boundaries *)
Example ex_range : cs_wf (cs_range x3d x95) /\ cs_has (cs_range x3d x95) x7f = true
  /\ cs_has (cs_range x3d x95) x96 = false /\ cs_size (cs_range x3d x95) = 89%nat
  /\ cs_is_small (cs_range x3d x95) = false /\ cs_is_small (cs_range x61 x7a) = true
  /\ ss_has (cs_small (cs_range x61 x7a)) x62 = Some true.
Proof. split; [apply cs_range_wf|]. repeat split; vm_compute; reflexivity. Qed.
