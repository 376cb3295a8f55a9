(** Labels of goroutines that compile at the same time.  isa.NewLabel (isa.go:40, 50-55) increments a global
    variable and reads it again, without a lock:

      var uniqId int
      func NewLabel() Label { uniqId++; return Label{Id: uniqId} }

    Here each goroutine's call is three accesses of the variable, and the accesses of all goroutines are
    interleaved.  Go promises even less for programs with a race. *)
From Verif Require Import Base Model_Charset Model_Isa Model_Pattern.
Local Open Scope nat_scope.

(** where a goroutine is in NewLabel: not called, [uniqId] loaded for the increment, increment stored *)
Inductive phase := Idle | Loaded (v : nat) | Stored.
(** [uniqId], the goroutines, and the labels returned so far, each with the goroutine that got it *)
Record counter := Counter { n_id : nat; n_phase : nat -> phase; n_out : list (nat * nat) }.
Definition set_phase (f : nat -> phase) (g : nat) (x : phase) : nat -> phase := fun k => if k =? g then x else f k.

(** isa.go:50-55: the next access of goroutine [g] *)
Definition label_step (s : counter) (g : nat) : counter :=
  match n_phase s g with
  | Idle => Counter (n_id s) (set_phase (n_phase s) g (Loaded (n_id s))) (n_out s)
  | Loaded v => Counter (S v) (set_phase (n_phase s) g Stored) (n_out s)
  | Stored => Counter (n_id s) (set_phase (n_phase s) g Idle) (n_out s ++ [(g, n_id s)])
  end.
(** the accesses in the order of [sched], from [uniqId] = [u] *)
Definition label_run (u : nat) (sched : list nat) : counter := fold_left label_step sched (Counter u (fun _ => Idle) []).
(** the labels goroutine [g] got, in the order of its calls *)
Definition drawn (g : nat) (s : counter) : list nat := map snd (filter (fun x => fst x =? g) (n_out s)).

(** pattern.go:49-57 Memo: the identifier is read, and then the variable is incremented.  The accesses of
    goroutine [g]: read the identifier, load for the increment, store. *)
Inductive memo_phase := MIdle | MRead (id : nat) | MLoaded (id v : nat).
Record memo_counter := MCounter { k_id : nat; k_phase : nat -> memo_phase; k_out : list (nat * nat) }.
Definition set_memo_phase (f : nat -> memo_phase) (g : nat) (x : memo_phase) : nat -> memo_phase := fun k => if k =? g then x else f k.
Definition memo_step (s : memo_counter) (g : nat) : memo_counter :=
  match k_phase s g with
  | MIdle => MCounter (k_id s) (set_memo_phase (k_phase s) g (MRead (k_id s))) (k_out s)
  | MRead id => MCounter (k_id s) (set_memo_phase (k_phase s) g (MLoaded id (k_id s))) (k_out s)
  | MLoaded id v => MCounter (S v) (set_memo_phase (k_phase s) g MIdle) (k_out s ++ [(g, id)])
  end.
Definition memo_run (u : nat) (sched : list nat) : memo_counter := fold_left memo_step sched (MCounter u (fun _ => MIdle) []).
(** the identifiers goroutine [g] got *)
Definition memo_ids (g : nat) (s : memo_counter) : list nat := map snd (filter (fun x => fst x =? g) (k_out s)).

Section Drawn.
(** see Model_Pattern *)
Variable threshold : nat.
(** the label that the goroutine's i-th call of NewLabel returns *)
Variable lab : nat -> nat.
Notation inline_all := (inline_all threshold).

(** a call of NewLabel; [cs_uniq] counts this goroutine's calls *)
Definition draw (st : cstate) : nat * cstate := (lab (cs_uniq st), CState (S (cs_uniq st)) (cs_memo st)).

(** the methods Compile (compile.go:53-500), as [compile_f] of Model_Pattern but with drawn labels.  That the
    two agree otherwise is proved (Proof_Labels.drawn_in_order). *)
Fixpoint compile_d (fuel : nat) (p : pattern) (st : cstate) {struct fuel} : cres :=
  match fuel with
  | O => CFuel
  | S fuel =>
    match p with
    | PAlt pl pr =>                                                   (* compile.go:53-113 *)
        match combine (get pl) (get pr) with
        | Some set => COk [ISet set] st
        | None =>
            cbind (compile_d fuel (get pl) st) (fun l st =>
            cbind (compile_d fuel (get pr) st) (fun r st =>
            let (L1, st) := draw st in
            let (L2, st) := draw st in
            COk (alt_code l r L1 L2) st))
        end
    | PSeq pl pr =>                                                   (* compile.go:116-127 *)
        cbind (compile_d fuel (get pl) st) (fun l st =>
        cbind (compile_d fuel (get pr) st) (fun r st =>
        COk (l ++ r) st))
    | PStar q =>                                                      (* compile.go:130-175 *)
        match get q with
        | PClass s => COk [ISpan s] st
        | PMemo q' _ =>
            cbind (compile_d fuel (get q') st) (fun sub st =>
            let (L1, st) := draw st in
            let (L2, st) := draw st in
            let (L3, st) := draw st in
            let (NoJump, st) := draw st in
            let m := (cs_memo st + 1)%Z in
            let st := CState (cs_uniq st) m in
            COk ([ILabel L1; IMemoTreeOpen L3 m; IChoice L2] ++ sub ++
                 [ICommit NoJump; ILabel NoJump; IMemoTreeInsert; ILabel L3; IMemoTree; IJump L1;
                  ILabel L2; IMemoTreeClose m]) st)
        | gq =>
            cbind (compile_d fuel gq st) (fun sub st =>
            let (L1, st) := draw st in
            let (L2, st) := draw st in
            COk ([IChoice L2; ILabel L1] ++ sub ++ [IPartialCommit L1; ILabel L2]) st)
        end
    | PPlus q =>                                                      (* compile.go:178-193 *)
        cbind (compile_d fuel (PStar (get q)) st) (fun star st =>
        cbind (compile_d fuel (get q) st) (fun sub st =>
        COk (sub ++ star) st))
    | POpt q =>                                                       (* compile.go:196-222 *)
        match get q with
        | PLit [b] => let (L1, st) := draw st in COk [ITestCharNoChoice b L1; ILabel L1] st
        | PClass s => let (L1, st) := draw st in COk [ITestSetNoChoice s L1; ILabel L1] st
        | gq => compile_d fuel (PAlt gq PEmpty) st
        end
    | PNot q =>                                                       (* compile.go:225-234 *)
        cbind (compile_d fuel (get q) st) (fun sub st =>
        let (L1, st) := draw st in
        COk ([IChoice L1] ++ sub ++ [IFailTwice; ILabel L1]) st)
    | PAnd q =>                                                       (* compile.go:237-250 *)
        cbind (compile_d fuel (get q) st) (fun sub st =>
        let (L1, st) := draw st in
        let (L2, st) := draw st in
        COk ([IChoice L1] ++ sub ++ [IBackCommit L2; ILabel L1; IFail; ILabel L2]) st)
    | PCap q id =>                                                    (* compile.go:253-289 *)
        cbind (compile_d fuel (get q) st) (fun sub st => COk (cap_code sub id) st)
    | PMemo q id =>                                                   (* compile.go:292-301 *)
        let (L1, st) := draw st in
        cbind (compile_d fuel (get q) st) (fun sub st =>
        COk ([IMemoOpen L1 id] ++ sub ++ [IMemoClose; ILabel L1]) st)
    | PCheck q ck id flag =>                                          (* compile.go:304-316 *)
        let (L1, st) := draw st in
        cbind (compile_d fuel (get q) st) (fun sub st =>
        COk ([ICheckBegin id flag] ++ sub ++ [ICheckEnd ck; ILabel L1]) st)
    | PSearch q =>                                                    (* compile.go:319-356 *)
        cbind (compile_d fuel (get q) st) (fun sub st =>
        compile_d fuel (search_grammar q (search_skip sub)) st)
    | PEmptyOp op => COk [IEmpty op] st                               (* compile.go:359-365 *)
    | PGrammar defs0 start =>                                         (* compile.go:368-443 *)
        let defs := inline_all defs0 in
        let used := used_names defs in
        match used with
        | [] => match assoc defs start with
                | Some q => compile_d fuel q st
                | None => CNilPanic                                   (* nil interface method call *)
                end
        | _ =>
            let (LEnd, st) := draw st in
            (* the loop over the definitions, compile.go:392-405 *)
            let fix loop (ds : list (string * pattern)) (st : cstate)
                         (code : program) (lbls : list (string * nat)) {struct ds}
                : cres * list (string * nat) :=
              match ds with
              | [] => (COk code st, lbls)
              | (k, v) :: ds =>
                  if negb (String.eqb k start) && negb (str_mem k used) then loop ds st code lbls
                  else
                    let (lbl, st) := draw st in
                    match compile_d fuel v st with
                    | COk fn st => loop ds st (code ++ [ILabel lbl] ++ fn ++ [IReturn]) (lbls ++ [(k, lbl)])
                    | r => (r, lbls)
                    end
              end in
            match loop defs st [IOpenCall start; IJump LEnd] [] with
            | (COk code st, lbls) =>
                match resolve lbls code with
                | inl x => CNotFound x
                | inr code => COk (code ++ [ILabel LEnd]) st
                end
            | (r, _) => r
            end
        end
    | PClass s => COk [ISet s] st                                     (* compile.go:446-450 *)
    | PLit str => COk (map IChar str) st                              (* compile.go:453-459 *)
    | PNonTerm _ (Some q) => compile_d fuel q st                      (* compile.go:462-465 *)
    | PNonTerm x None => COk [IOpenCall x] st                         (* compile.go:466-469 *)
    | PDot n => COk [IAny n] st                                       (* compile.go:472-476 *)
    | PError m None => COk [IError m; IEnd true] st                   (* compile.go:479-495 *)
    | PError m (Some q) =>
        cbind (compile_d fuel (get q) st) (fun rec st => COk (IError m :: rec) st)
    | PEmpty => COk [] st                                             (* compile.go:498-500 *)
    end
  end.

(** compile.go:21-29 Compile *)
Definition compile_drawn (fuel : nat) (p : pattern) (st : cstate) : cres :=
  match compile_d fuel p st with
  | COk c st => COk (optimize c) st
  | r => r
  end.
End Drawn.

(** a program that compiles one pattern [n] times: isa.uniqId and memoId afterwards (isa.go:40, pattern.go:37;
    Compile increments memoId for each repetition of a memoized pattern, compile.go:147) *)
Fixpoint again (threshold fuel : nat) (p : pattern) (n : nat) (st : cstate) : option cstate :=
  match n with
  | O => Some st
  | S n => match again threshold fuel p n st with
           | Some st => match compile threshold fuel p st with COk _ st => Some st | _ => None end
           | None => None
           end
  end.
