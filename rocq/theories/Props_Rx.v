(** Property C38: patterns made from regular expressions. *)
From Coq Require Import ZArith.
From Verif Require Import Base Model_Charset Model_Isa Model_Capture Model_Input Model_Code Model_VM Model_Pattern Model_Rxconv Spec_Peg Spec_Scope Spec_Run Spec_Rx Proof_Eval Proof_Props2 Proof_Rx Proof_Rx2 Proof_Rx3 Props_Compile.
Local Open Scope nat_scope.

(** C38: on the UTF-8 bytes of a text, the machine finds the leftmost-first match of the expression: it ends
    where the match ends and has one capture, that of the match; if there is no match it fails.
    What is missing: the expression must [fits] (greedy, no folding of letters, repeated parts match at
    least one character), and either the text is ASCII or the expression is [narrow].  Each of these
    conditions is needed, see below. *)
Theorem C38_match_partial : forall bufsz CS check t thr e n p n' code (cs0 : CS) a m,
  0 < bufsz -> check_ok check (utf8s t) -> Forall scalar t -> fits e -> ascii t \/ narrow e ->
  from_regexp e n = Some (p, n') -> compiled thr p code -> leftmost_first t e a m ->
  exists f o st c, vm_exec bufsz none_table check None f code (utf8s t) tt cs0 = Some (ROk o st) /\
    o_ok o = true /\ o_pos o = boff t m /\ o_capt o = Some c /\ flat1 c = [CNode 0 (boff t a) (boff t m - boff t a) []] /\ o_errs o = [].
Proof.
  intros bufsz CS check t thr e n p n' code cs0 a m Hb Hk Ht F G Hp Hc Hm.
  pose proof (proj1 (from_regexp_peg t Ht CS check e n p n' F G Hp ([], cs0)) a m Hm) as P.
  destruct (exec_some bufsz Hb CS check _ Hk thr p code None cs0 _ _ _ (from_regexp_supported e n p n' Hp) Hc P) as (f & o & st & H1 & (H2 & H3 & c & H4 & H5) & H6 & _).
  exists f, o, st, c. auto 10.
Qed.
Print Assumptions C38_match_partial.
Theorem C38_no_match_partial : forall bufsz CS check t thr e n p n' code (cs0 : CS),
  0 < bufsz -> check_ok check (utf8s t) -> Forall scalar t -> fits e -> ascii t \/ narrow e ->
  from_regexp e n = Some (p, n') -> compiled thr p code -> no_match t e ->
  exists f o st, vm_exec bufsz none_table check None f code (utf8s t) tt cs0 = Some (ROk o st) /\ o_ok o = false /\ o_errs o = [].
Proof.
  intros bufsz CS check t thr e n p n' code cs0 Hb Hk Ht F G Hp Hc Hm.
  pose proof (proj2 (from_regexp_peg t Ht CS check e n p n' F G Hp ([], cs0)) Hm) as P.
  destruct (exec_some bufsz Hb CS check _ Hk thr p code None cs0 _ _ _ (from_regexp_supported e n p n' Hp) Hc P) as (f & o & st & H1 & (H2 & _) & H6 & _).
  exists f, o, st. auto 10.
Qed.
Print Assumptions C38_no_match_partial.
(** so whenever the machine stops: it has found a match exactly if the expression has one *)
Theorem C38_iff_partial : forall bufsz CS check t thr e n p n' code (cs0 : CS) f y,
  0 < bufsz -> check_ok check (utf8s t) -> Forall scalar t -> fits e -> ascii t \/ narrow e ->
  from_regexp e n = Some (p, n') -> compiled thr p code ->
  vm_exec bufsz none_table check None f code (utf8s t) tt cs0 = Some y ->
  exists o st, y = ROk o st /\ (o_ok o = true <-> exists a m, leftmost_first t e a m) /\
    forall a m, leftmost_first t e a m -> o_pos o = boff t m.
Proof.
  intros bufsz CS check t thr e n p n' code cs0 f y Hb Hk Ht F G Hp Hc Hy. pose proof (from_regexp_peg t Ht CS check e n p n' F G Hp ([], cs0)) as [P1 P2].
  destruct (match_or_not t e) as [(a & m & Hm)|Hm].
  - destruct (exec_is bufsz Hb CS check _ Hk thr p code None cs0 _ _ _ f y (from_regexp_supported e n p n' Hp) Hc (P1 a m Hm) Hy) as (o & st & -> & (H2 & H3 & _) & _).
    exists o, st. split; [reflexivity|]. split; [split; [intros _; eauto|intros _; exact H2]|]. intros a' m' Hm'. rewrite (leftmost_fun _ _ _ _ _ _ Hm' Hm). exact H3.
  - destruct (exec_is bufsz Hb CS check _ Hk thr p code None cs0 _ _ _ f y (from_regexp_supported e n p n' Hp) Hc (P2 Hm) Hy) as (o & st & -> & (H2 & _) & _).
    assert (N : forall a m, ~ leftmost_first t e a m) by (intros a m (L & (more & E) & _); rewrite (Hm a L) in E; discriminate).
    exists o, st. split; [reflexivity|]. split; [split; [congruence|intros (a & m & H); destruct (N a m H)]|]. intros a m H. destruct (N a m H).
Qed.
Print Assumptions C38_iff_partial.
(** FromRegexp accepts these expressions, and if no repetition is inside of another the pattern compiles and
    no name is left open *)
Theorem C38_compiles_partial : forall thr e n st, fits e -> flat_reps e ->
  exists p n' F c st', from_regexp e n = Some (p, n') /\ (forall fuel, F <= fuel -> compile thr fuel p st = COk c st') /\ forall x, ~ In (IOpenCall x) c.
Proof.
  intros thr e n st F R. destruct (from_regexp e n) as [[p n']|] eqn:E.
  - destruct (from_regexp_defined e n p n' R E) as [D C]. destruct (C16_success thr p st D) as (F0 & c & st' & H1 & H2). exists p, n', F0, c, st'. split; [reflexivity|]. split; [exact H1|].
    intros x Hx. apply H2 in Hx. rewrite C in Hx. exact Hx.
  - unfold from_regexp in E. rewrite (fits_verify e F) in E. destruct (pi e n PEmpty). discriminate.
Qed.
Print Assumptions C38_compiles_partial.
(** unsupported expressions, like counted repetitions, give an error and no pattern *)
Theorem C38_error : forall e n, from_regexp e n = None <-> ~ all_parts (fun e => e <> RxOther) e.
Proof. exact from_regexp_none. Qed.
Print Assumptions C38_error.

(** a word with letters and digits, and one with non-ASCII letters: ab(c|d?e)*[x-z]+\b|é[α-γ]$ *)
Definition ex_rx : rx :=
  RxAlt [RxConcat [RxLit false [97; 98]; RxStar true (RxCapture (RxAlt [RxLit false [99]; RxConcat [RxQuest true (RxLit false [100]); RxLit false [101]]]));
                   RxPlus true (RxClass [(120, 122)]); RxAssert AWord];
         RxConcat [RxLit false [233]; RxClass [(945, 947)]; RxAssert AEndText]]%N.
Definition ex_t1 : list N := [233; 97; 98; 99; 100; 101; 120; 49; 97; 98; 101; 99; 120; 121; 32]%N.
Definition ex_t2 : list N := [97; 98; 233; 946]%N.
Example ex_rx_ok : fits ex_rx /\ narrow ex_rx /\ flat_reps ex_rx /\ Forall scalar ex_t1 /\ Forall scalar ex_t2 /\
  (exists p n' code, from_regexp ex_rx 0 = Some (p, n') /\ compiled 100 p code) /\
  leftmost_first ex_t1 ex_rx 8 14 /\ leftmost_first ex_t2 ex_rx 2 4 /\ no_match [97; 98; 99]%N ex_rx.
Proof.
  split; [|split; [|split; [|split; [|split; [|split; [|split; [|split]]]]]]].
  - vm_compute. repeat split; try discriminate; repeat constructor; discriminate.
  - unfold narrow. cbn [ex_rx all_parts narrow1]. repeat match goal with |- _ /\ _ => split | |- True => exact Logic.I | |- Forall _ [] => apply Forall_nil | |- Forall _ _ => apply Forall_cons; [first [split; [reflexivity|lia] | cbn [fst snd]; lia]|] end.
  - vm_compute. tauto.
  - repeat (constructor; [split; [reflexivity|lia]|]). constructor.
  - repeat (constructor; [split; [reflexivity|lia]|]). constructor.
  - do 3 eexists. split; [vm_compute; reflexivity|]. exists 60, (CState 0 0). do 2 eexists. split; [vm_compute; reflexivity|vm_compute; reflexivity].
  - split; [cbn; lia|]. split; [eexists; vm_compute; reflexivity|]. intros n H. do 8 (destruct n as [|n]; [reflexivity|]). lia.
  - split; [cbn; lia|]. split; [eexists; vm_compute; reflexivity|]. intros n H. do 2 (destruct n as [|n]; [reflexivity|]). lia.
  - intros n H. cbn in H. do 4 (destruct n as [|n]; [reflexivity|]). lia.
Qed.
(** C38: the bytes of a character are those of RFC 3629, and the characters are those that have bytes there *)
Theorem C38_utf8 : forall r, ((r < 0xD800 \/ 0xDFFF < r) /\ r <= 0x10FFFF)%N -> scalar r /\ spells (utf8 r) r.
Proof. exact utf8_spells. Qed.
Print Assumptions C38_utf8.
Definition no_check (k : nat) (cs : unit) (m s : list byte) (i : nat) (id fl : Z) : unit * option nat := (cs, None).
(** FromRegexp, Compile, Encode and Exec on a text: whether there is a match and where it ends *)
Definition run_rx (e : rx) (t : list N) : option (bool * nat) :=
  match from_regexp e 0 with
  | Some (p, _) =>
      match compile 100 60 p (CState 0 0) with
      | COk c _ => match encode c with
                   | Some code => match vm_exec 8 none_table no_check None 2000 code (utf8s t) tt tt with Some (ROk o _) => Some (o_ok o, o_pos o) | _ => None end
                   | None => None
                   end
      | _ => None
      end
  | None => None
  end.
Example ex_rx_runs : run_rx ex_rx ex_t1 = Some (true, boff ex_t1 14) /\ run_rx ex_rx ex_t2 = Some (true, boff ex_t2 4) /\ boff ex_t2 4 = 6.
Proof. vm_compute. auto. Qed.

(** The conditions are needed.  A repetition inside of a repetition, (a*b)*, does not compile: the inner one is
    a grammar of its own that calls the outer one. *)
Theorem C38_nested_refuted : let e := RxStar true (RxCapture (RxConcat [RxStar true (RxLit false [97]); RxLit false [98]]))%N in
  fits e /\ exists p n', from_regexp e 0 = Some (p, n') /\ forall fuel, 60 <= fuel -> compile 100 fuel p (CState 0 0) = CNotFound "a1".
Proof.
  cbv zeta. split; [vm_compute; tauto|]. do 2 eexists. split; [vm_compute; reflexivity|]. intros fuel H. do 60 (destruct fuel as [|fuel]; [lia|]). vm_compute. reflexivity.
Qed.
Print Assumptions C38_nested_refuted.
(** if the repeated part can match nothing the machine runs forever: (a?)*b on "b" *)
Theorem C38_empty_repeat_refuted : let e := RxConcat [RxStar true (RxCapture (RxQuest true (RxLit false [97]))); RxLit false [98]]%N in
  leftmost_first [98%N] e 0 1 /\ exists p n', from_regexp e 0 = Some (p, n') /\ (exists code, compiled 100 p code) /\
  forall code f, compiled 100 p code -> vm_exec 4 none_table no_check None f code (utf8s [98%N]) tt tt = None.
Proof.
  cbv zeta. split; [split; [cbn; lia|]; split; [eexists; vm_compute; reflexivity|intros n H; lia]|]. do 2 eexists. split; [vm_compute; reflexivity|]. split.
  - eexists. exists 60, (CState 0 0). do 2 eexists. split; [vm_compute; reflexivity|vm_compute; reflexivity].
  - exact loop_exec.
Qed.
Print Assumptions C38_empty_repeat_refuted.
(** a*? on "aa" matches everything instead of nothing *)
Theorem C38_lazy_refuted : let e := RxStar false (RxLit false [97%N]) in let t := [97; 97]%N in
  leftmost_first t e 0 0 /\ run_rx e t = Some (true, 2).
Proof. cbv zeta. split; [split; [cbn; lia|]; split; [eexists; vm_compute; reflexivity|intros n H; lia]|vm_compute; reflexivity]. Qed.
Print Assumptions C38_lazy_refuted.
(** (?i)a does not match "a": the parser gives the literal "A" with the flag FoldCase, which is ignored *)
Theorem C38_fold_refuted : let e := RxLit true [65%N] in let t := [97]%N in
  leftmost_first t e 0 1 /\ exists i, run_rx e t = Some (false, i).
Proof. cbv zeta. split; [split; [cbn; lia|]; split; [eexists; vm_compute; reflexivity|intros n H; lia]|eexists; vm_compute; reflexivity]. Qed.
Print Assumptions C38_fold_refuted.
(** the dot matches one byte of "é", which has two *)
Theorem C38_dot_refuted : let t := [233]%N in
  leftmost_first t RxAnyNotNL 0 1 /\ leftmost_first t RxAny 0 1 /\ boff t 1 = 2 /\ run_rx RxAnyNotNL t = Some (true, 1) /\ run_rx RxAny t = Some (true, 1).
Proof. cbv zeta. repeat split; try (vm_compute; reflexivity); try (eexists; vm_compute; reflexivity); try (intros n H; lia); cbn; lia. Qed.
Print Assumptions C38_dot_refuted.
(** [é-ë] does not match "é" *)
Theorem C38_class_refuted : let e := RxClass [(233, 235)]%N in let t := [233]%N in
  leftmost_first t e 0 1 /\ exists i, run_rx e t = Some (false, i).
Proof. cbv zeta. split; [split; [cbn; lia|]; split; [eexists; vm_compute; reflexivity|intros n H; lia]|eexists; vm_compute; reflexivity]. Qed.
Print Assumptions C38_class_refuted.
(** [\x{DFFF}-\x{E000}] matches U+FFFD, which is not in it *)
Theorem C38_surrogate_refuted : let e := RxClass [(0xDFFF, 0xE000)]%N in let t := [0xFFFD]%N in
  no_match t e /\ run_rx e t = Some (true, 3).
Proof. cbv zeta. split; [intros [|[|n]] H; [reflexivity|reflexivity|cbn in H; lia]|vm_compute; reflexivity]. Qed.
Print Assumptions C38_surrogate_refuted.
(** \B matches inside of a character: on "aé" at byte 2 *)
Theorem C38_noword_refuted : let e := RxAssert ANoWord in let t := [97; 233]%N in
  leftmost_first t e 2 2 /\ boff t 2 = 3 /\ run_rx e t = Some (true, 2).
Proof.
  cbv zeta. split; [split; [cbn; lia|]; split; [eexists; vm_compute; reflexivity|]|split; vm_compute; reflexivity]. intros n H. do 2 (destruct n as [|n]; [reflexivity|]). lia.
Qed.
Print Assumptions C38_noword_refuted.
