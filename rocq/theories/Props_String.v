(** Properties C52 and C53: the printed forms of character sets and patterns. *)
From Coq Require Import String Permutation.
From Verif Require Import Base Model_Charset Model_Isa Model_Capture Model_VM Model_Pattern Spec_Peg Proof_Eval
  Model_String Spec_String Proof_String Model_Pretty Spec_Pretty Spec_Scope Proof_Pretty Proof_PrettyGrammar.
Local Open Scope list_scope.
Local Open Scope nat_scope.

(** C52: the text of a set is made of characters and ranges of Go, in order and without two that could be
    one, and a byte is in one of them exactly if it is in the set *)
Theorem C52_reads : forall c : cset, exists l : list (N * N),
  read_set (cs_string c) = Some l /\ tidy l /\
  forall b, cs_has c b = true <-> exists lo hi, In (lo, hi) l /\ (lo <= bN b <= hi)%N.
Proof. exact p_string. Qed.
Print Assumptions C52_reads.

(** C52: sets with the same text are equal *)
Theorem C52_injective : forall c d : cset, cs_wf c -> cs_wf d -> cs_string c = cs_string d -> c = d.
Proof. exact p_string_inj. Qed.
Print Assumptions C52_injective.

Example ex_string1 : cs_string (cs_add (cs_range x61 x7a) (cs_new [x30; x27; x2c])) = txt "{'\'',',','0','a'..'z'}".
Proof. vm_compute. reflexivity. Qed.
Example ex_string2 : cs_string (cs_compl (cs_range x0a x7f)) = txt "{'\x00'..'\t','\u0080'..'\u00ff'}".
Proof. vm_compute. reflexivity. Qed.
Example ex_string3 : cs_string (cs_new [xfe; xff]) = txt "{'\u00fe'..'\u00ff'}" /\ cs_string (cs_new [xff]) = txt "{'\u00ff'}" /\
  cs_string (cs_new [xfe]) = txt "{'\u00fe'}" /\ cs_string cs_zero = txt "{}".
Proof. vm_compute. auto. Qed.
Example ex_read : read_set (txt "{'\'',',','0','a'..'z'}") = Some [(39, 39); (44, 44); (48, 48); (97, 122)]%N.
Proof. vm_compute. reflexivity. Qed.

(** C53: legible patterns with the same printed form match in the same way, in every scope, at every
    position, with the same end, captures, errors and checker calls *)
Theorem C53_meaning_partial : forall quote threshold order f g b b' p q t, quotes quote ->
  pretty quote threshold order f p = Some t -> pretty quote threshold order g q = Some t ->
  legible false b p -> legible false b' q ->
  forall s CS check E i w r w', peg s (CS:=CS) check E p i w r w' <-> peg s check E q i w r w'.
Proof.
  intros quote threshold order f g b b' p q t Q Hp Hq Lp Lq s CS check E i w r w'.
  pose proof (p_pretty _ _ _ _ _ _ _ _ _ _ _ Q Hp Hq Lp Lq) as S.
  split; apply se_peg; [exact S|apply se_sym, S].
Qed.
Print Assumptions C53_meaning_partial.

(** C53: with captures, whose identifiers are not printed, everything but these identifiers is the same *)
Theorem C53_captures_partial : forall quote threshold order f g b b' p q t, quotes quote ->
  pretty quote threshold order f p = Some t -> pretty quote threshold order g q = Some t ->
  legible true b p -> legible true b' q ->
  forall s CS check E i w r w', peg s (CS:=CS) check E p i w r w' -> exists r', peg s check E q i w r' w' /\ anonymous r' = anonymous r.
Proof.
  intros quote threshold order f g b b' p q t Q Hp Hq Lp Lq. apply se_anon. exact (p_pretty _ _ _ _ _ _ _ _ _ _ _ Q Hp Hq Lp Lq).
Qed.
Print Assumptions C53_captures_partial.

(** C53: readable grammars with the same printed form, in whatever orders Go goes over their maps, match in the
    same way (grammars whose inner grammars do not redefine names, as for C13) *)
Theorem C53_grammar_partial : forall quote thr thr' order order' f g defs defs' start start' t, quotes quote ->
  (forall l, Permutation (order l) l) -> (forall l, Permutation (order' l) l) ->
  pretty quote thr order f (PGrammar defs start) = Some t -> pretty quote thr' order' g (PGrammar defs' start') = Some t ->
  readable_grammar false thr defs start -> readable_grammar false thr' defs' start' ->
  well_scoped (PGrammar defs start) -> well_scoped (PGrammar defs' start') ->
  start = start' /\ forall s CS check E i w r w', peg s (CS:=CS) check E (PGrammar defs start) i w r w' <-> peg s check E (PGrammar defs' start') i w r w'.
Proof.
  intros quote thr thr' order order' f g defs defs' start start' t Q O O' H H' R R' W W'.
  destruct (grammar_read _ _ _ _ _ _ _ _ _ _ _ _ _ Q O O' H H' R R') as [E S]. split; [exact E|]. intros s CS check E0 i w r w'.
  rewrite <- (grammar_in thr _ _ _ _ _ _ _ _ _ _ W), <- (grammar_in thr' _ _ _ _ _ _ _ _ _ _ W'). split; apply se_peg; [exact S|apply se_sym, S].
Qed.
Print Assumptions C53_grammar_partial.

(** C53: Prettify of a legible pattern ends; the size of the pattern is enough fuel *)
Theorem C53_ends : forall quote threshold order cap p b, legible cap b p -> exists t, pretty quote threshold order (psize p) p = Some t.
Proof. intros quote threshold order cap p b. apply pretty_ends, le_n. Qed.
Print Assumptions C53_ends.

(** an instance: an identifier followed by a quoted text or a sum *)
Definition ex_name : pattern := PSeq (PClass (cs_range x61 x7a)) (PStar (PAlt (PClass (cs_range x61 x7a)) (PClass (cs_range x30 x39)))).
Definition ex_pattern : pattern :=
  PAlt (PSeq (PMemo ex_name 7) (PNot (PLit [x22; x5c]))) (PPlus (PAlt (PNonTerm "Sum" None) (PSearch (PDot x01)))).
Example ex_pretty : pretty bs_quote 100 (fun l => l) 20 ex_pattern =
  Some (txt "(({{ ([{'a'..'z'}] [{'0'..'9','a'..'z'}]*) }} !""\""\\"") / (Sum / search(.))+)").
Proof. vm_compute. reflexivity. Qed.
Example ex_legible : legible false false ex_pattern /\ quotes bs_quote.
Proof.
  split; [|exact bs_quotes]. eapply lg_alt; [reflexivity| |].
  - eapply lg_seq; [reflexivity| |].
    + eapply lg_memo; [reflexivity|]. eapply lg_seq; [reflexivity| |].
      * eapply lg_class. reflexivity.
      * eapply lg_star; [reflexivity|]. eapply lg_class. reflexivity.
    + eapply lg_not; [reflexivity|]. eapply lg_lit. reflexivity.
  - eapply lg_plus; [reflexivity|]. eapply lg_alt; [reflexivity| |].
    + eapply lg_name; [reflexivity|discriminate|reflexivity].
    + eapply lg_search; [reflexivity|]. apply lg_dot. reflexivity.
Qed.

(** an instance with captures, an assertion and errors *)
Definition ex_capture (id : Z) : pattern :=
  PSeq (PCap (PAlt (PLit [x61]) (PError "no a" (Some (PStar (PDot x01))))) id) (PAlt (PEmptyOp x80) (PError "stop" None)).
Example ex_capture_pretty : forall id, pretty bs_quote 100 (fun l => l) 20 (ex_capture id) =
  Some (txt "({ (""a"" / err(no a, .*)) } (empty(128) / err(stop, <invalid>)))").
Proof. intro id. vm_compute. reflexivity. Qed.
Example ex_capture_legible : forall id, legible true false (ex_capture id).
Proof.
  intro id. eapply lg_seq; [reflexivity| |].
  - eapply lg_cap; [reflexivity|reflexivity|]. eapply lg_alt; [reflexivity|eapply lg_lit; reflexivity|].
    eapply lg_err; [reflexivity| |]; [cbn; intuition discriminate|]. eapply lg_star; [reflexivity|]. apply lg_dot. reflexivity.
  - eapply lg_alt; [reflexivity|eapply lg_op; reflexivity|]. eapply lg_abort; [reflexivity|]. cbn; intuition discriminate.
Qed.

(** an instance of a grammar: sums of numbers, in two orders and with different definitions of the digits *)
Definition ex_sums (a b : byte) : frame :=
  [("Sum"%string, PSeq (PNonTerm "Num" None) (PStar (PSeq (PLit [x2b]) (PNonTerm "Num" None))));
   ("Num"%string, PPlus (PAlt (PClass (cs_range x30 a)) (PClass (cs_range b x39))))].
Example ex_sums_pretty :
  pretty bs_quote 0 (fun l => l) 20 (PGrammar (ex_sums x35 x36) "Sum") = pretty bs_quote 0 (fun l => l) 20 (PGrammar (ex_sums x37 x38) "Sum") /\
  pretty bs_quote 0 (@rev _) 20 (PGrammar (rev (ex_sums x35 x36)) "Sum") = pretty bs_quote 0 (fun l => l) 20 (PGrammar (ex_sums x37 x38) "Sum").
Proof. vm_compute. split; reflexivity. Qed.
Example ex_sums_text : pretty bs_quote 0 (fun l => l) 20 (PGrammar (ex_sums x35 x36) "Sum") =
  Some (txt "Sum" ++ [x0a] ++ txt "Sum <- (Num (""+"" Num)*)" ++ [x0a] ++ txt "Num <- [{'0'..'9'}]+" ++ [x0a]).
Proof. vm_compute. reflexivity. Qed.
Example ex_sums_readable : forall a b, readable_grammar false 0 (ex_sums a b) "Sum" /\ well_scoped (PGrammar (ex_sums a b) "Sum").
Proof.
  intros a b. assert (N : forall x, x = "Num"%string \/ x = "Sum"%string -> name_ok x) by (intros x [-> | ->]; split; [discriminate|reflexivity|discriminate|reflexivity]).
  split; [split; [reflexivity|split]|].
  - repeat constructor; cbn; intuition discriminate.
  - change (inline_all 0 (ex_sums a b)) with (ex_sums a b). constructor; [|constructor; [|constructor]].
    + split; [apply N; auto|]. eexists. eapply lg_seq; [reflexivity| |].
      * eapply lg_name; [reflexivity|discriminate|reflexivity].
      * eapply lg_star; [reflexivity|]. eapply lg_seq; [reflexivity|eapply lg_lit; reflexivity|eapply lg_name; [reflexivity|discriminate|reflexivity]].
    + split; [apply N; auto|]. eexists. eapply lg_plus; [reflexivity|]. eapply lg_class. reflexivity.
  - cbn. intuition discriminate.
Qed.

Definition no_check : nat -> unit -> list byte -> list byte -> nat -> Z -> Z -> unit * option nat :=
  fun _ cs _ _ _ _ _ => (cs, None).

(** C53 is false in general: Any(1) and Any(2) have the same printed form *)
Theorem C53_any_refuted : exists p q t s,
  (forall quote threshold order f, 0 < f -> pretty quote threshold order f p = Some t /\ pretty quote threshold order f q = Some t) /\
  peg s no_check [] p 0 ([], tt) (RSucc 1 []) ([], tt) /\ peg s no_check [] q 0 ([], tt) RFail ([], tt).
Proof.
  exists (PDot x01), (PDot x02), (txt "."), [x61]. split; [|split].
  - intros quote threshold order [|f] H; [lia|]. split; reflexivity.
  - eapply (eval_sound _ _ _ 1). vm_compute. reflexivity.
  - eapply (eval_sound _ _ _ 1). vm_compute. reflexivity.
Qed.
Print Assumptions C53_any_refuted.

(** C53 is false in general: an optional negation and the negation of an option have the same printed form *)
Theorem C53_prefix_refuted : exists p q t s,
  (forall quote threshold order f, 2 < f -> pretty quote threshold order f p = Some t /\ pretty quote threshold order f q = Some t) /\
  peg s no_check [] p 0 ([], tt) (RSucc 0 []) ([], tt) /\ peg s no_check [] q 0 ([], tt) RFail ([], tt).
Proof.
  exists (POpt (PNot (PDot x01))), (PNot (POpt (PDot x01))), (txt "!.?"), []. split; [|split].
  - intros quote threshold order [|[|[|f]]] H; try lia. split; reflexivity.
  - eapply (eval_sound _ _ _ 2). vm_compute. reflexivity.
  - eapply (eval_sound _ _ _ 2). vm_compute. reflexivity.
Qed.
Print Assumptions C53_prefix_refuted.

(** C53 is false in general: captures with different identifiers have the same printed form *)
Theorem C53_capture_refuted : exists p q t s,
  (forall quote threshold order f, 1 < f -> pretty quote threshold order f p = Some t /\ pretty quote threshold order f q = Some t) /\
  peg s no_check [] p 0 ([], tt) (RSucc 1 [CNode 1 0 1 []]) ([], tt) /\ peg s no_check [] q 0 ([], tt) (RSucc 1 [CNode 2 0 1 []]) ([], tt).
Proof.
  exists (PCap (PDot x01) 1), (PCap (PDot x01) 2), (txt "{ . }"), [x61]. split; [|split].
  - intros quote threshold order [|[|f]] H; try lia. split; reflexivity.
  - eapply (eval_sound _ _ _ 2). vm_compute. reflexivity.
  - eapply (eval_sound _ _ _ 2). vm_compute. reflexivity.
Qed.
Print Assumptions C53_capture_refuted.

(** C53 is false in general: patterns with different checkers have the same printed form.  Checker 0 accepts
    everything, the others nothing. *)
Definition only_first : nat -> unit -> list byte -> list byte -> nat -> Z -> Z -> unit * option nat :=
  fun k cs _ _ _ _ _ => (cs, match k with 0 => Some 0 | _ => None end).
Theorem C53_check_refuted : exists p q t s,
  (forall quote threshold order f, 1 < f -> pretty quote threshold order f p = Some t /\ pretty quote threshold order f q = Some t) /\
  peg s only_first [] p 0 ([], tt) (RSucc 1 []) ([], tt) /\ peg s only_first [] q 0 ([], tt) RFail ([], tt).
Proof.
  exists (PCheck (PDot x01) 0 0 0), (PCheck (PDot x01) 1 0 0), (txt "check(.)"), [x61]. split; [|split].
  - intros quote threshold order [|[|f]] H; try lia. split; reflexivity.
  - eapply (eval_sound _ _ _ 2). vm_compute. reflexivity.
  - eapply (eval_sound _ _ _ 2). vm_compute. reflexivity.
Qed.
Print Assumptions C53_check_refuted.

(** C53: the printed form of a grammar depends on the order in which Go goes over a map *)
Theorem C53_order_refuted : exists p order order',
  (forall l, Permutation (order l) l) /\ (forall l, Permutation (order' l) l) /\
  pretty bs_quote 100 order 5 p <> pretty bs_quote 100 order' 5 p.
Proof.
  exists (PGrammar [("A"%string, PDot x01); ("B"%string, PLit [x61])] "A"), (fun l => l), (@rev _).
  split; [intro; apply Permutation_refl|]. split; [intro; apply Permutation_sym, Permutation_rev|].
  vm_compute. discriminate.
Qed.
Print Assumptions C53_order_refuted.
