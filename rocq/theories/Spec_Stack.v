(** What the instructions of the machine expect on its stack (C58). *)
From Coq Require Import ZArith.
From Verif Require Import Base Model_Isa Model_VM.

(** the entries that instructions push: vm.go:104 (Choice), 108 (Call), 194, 215, 237 (the tests), 244, 252
    (captures), 305 (MemoOpen), 329, 342 (MemoTreeOpen), 405 (CheckBegin) *)
Inductive entry_kind := EChoice | ECall | EMemo | ETree | ECapture | EChecker.
Definition entry_of (k : skind) : entry_kind :=
  match k with KBtrack _ _ => EChoice | KRet _ => ECall | KMemo _ _ => EMemo | KTree _ _ _ => ETree | KCapt _ _ => ECapture | KCheck _ _ _ => EChecker end.
(** the entry that an instruction takes away or changes, from what the instructions are meant to do: each of
    them ends something that another instruction has begun *)
Definition ends (i : insn) : option entry_kind :=
  match i with
  | ICommit _ | IPartialCommit _ | IBackCommit _ | IFailTwice => Some EChoice
  | IReturn => Some ECall
  | IMemoClose => Some EMemo
  | IMemoTreeInsert => Some ETree
  | ICaptureEnd => Some ECapture
  | ICheckEnd _ => Some EChecker
  | _ => None
  end.
