(** Model of isa/isa.go and of the helpers on programs in pattern/optimize.go and vm/op.go. *)
From Verif Require Import Base Model_Charset.
From Coq Require Export String.
Local Open Scope nat_scope.

(** isa.go:13-289, one constructor per instruction type.  The operand of a jump is a label id in
    programs (isa.go:44-47) and an absolute instruction pointer after decoding.
    [IOpenCall] is pattern/compile.go:43-46.  Fields never read by the code are dropped:
    CaptureEnd.Id (isa.go:257-260).
    Checkers are Go interface values; here an identifier interpreted by the checker oracle. *)
Inductive insn :=
| ILabel (l : nat)
| IChar (b : byte)
| IJump (l : nat)
| IChoice (l : nat)
| ICall (l : nat)
| ICommit (l : nat)
| IReturn
| IFail
| ISet (s : cset)
| IAny (n : byte)
| IPartialCommit (l : nat)
| ISpan (s : cset)
| IBackCommit (l : nat)
| IFailTwice
| IEmpty (op : byte)
| ITestChar (b : byte) (l : nat)
| ITestCharNoChoice (b : byte) (l : nat)
| ITestSet (s : cset) (l : nat)
| ITestSetNoChoice (s : cset) (l : nat)
| ITestAny (n : byte) (l : nat)
| IEnd (fail : bool)
| INop
| IMemoOpen (l : nat) (id : Z)
| IMemoClose
| IMemoTreeOpen (l : nat) (id : Z)
| IMemoTreeInsert
| IMemoTree
| IMemoTreeClose (id : Z)
| ICaptureBegin (id : Z)
| ICaptureLate (back : byte) (id : Z)
| ICaptureEnd
| ICaptureFull (back : byte) (id : Z)
| ICheckBegin (id flag : Z)
| ICheckEnd (ck : nat)
| IError (msg : string)
| IOpenCall (name : string).

Definition program := list insn.

(** does the instruction refer to a label (isa.go:36-38 JumpType), and which *)
Definition insn_lbl (i : insn) : option nat :=
  match i with
  | IJump l | IChoice l | ICall l | ICommit l | IPartialCommit l | IBackCommit l
  | ITestChar _ l | ITestCharNoChoice _ l | ITestSet _ l | ITestSetNoChoice _ l | ITestAny _ l
  | IMemoOpen l _ | IMemoTreeOpen l _ => Some l
  | _ => None
  end.

(** apply [f] to the label operand *)
Definition map_lbl (f : nat -> nat) (i : insn) : insn :=
  match i with
  | IJump l => IJump (f l)
  | IChoice l => IChoice (f l)
  | ICall l => ICall (f l)
  | ICommit l => ICommit (f l)
  | IPartialCommit l => IPartialCommit (f l)
  | IBackCommit l => IBackCommit (f l)
  | ITestChar b l => ITestChar b (f l)
  | ITestCharNoChoice b l => ITestCharNoChoice b (f l)
  | ITestSet s l => ITestSet s (f l)
  | ITestSetNoChoice s l => ITestSetNoChoice s (f l)
  | ITestAny n l => ITestAny n (f l)
  | IMemoOpen l id => IMemoOpen (f l) id
  | IMemoTreeOpen l id => IMemoTreeOpen (f l) id
  | i => i
  end.

(** the type switch [case isa.Label, isa.Nop] used in isa.go:26, optimize.go:177, code.go:109 *)
Definition is_label_or_nop (i : insn) : bool :=
  match i with ILabel _ | INop => true | _ => false end.

(** isa.go:22-33 Program.Size *)
Definition prog_size (p : program) : nat :=
  List.length (filter (fun i => negb (is_label_or_nop i)) p).

(** optimize.go:174-185 nextInsn *)
Fixpoint next_insn (p : program) : option insn :=
  match p with
  | [] => None
  | i :: p => if is_label_or_nop i then next_insn p else Some i
  end.

(** optimize.go:189-203 nextInsnLabel: index of the next instruction ([None] for -1)
    and whether a label came before it *)
Fixpoint next_insn_label_aux (p : program) (i : nat) (had : bool) : option nat * bool :=
  match p with
  | [] => (None, had)
  | INop :: p => next_insn_label_aux p (S i) had
  | ILabel _ :: p => next_insn_label_aux p (S i) true
  | _ :: _ => (Some i, had)
  end.
Definition next_insn_label (p : program) : option nat * bool := next_insn_label_aux p 0 false.

(** The maps label -> index built at optimize.go:209-215 (later labels overwrite earlier ones) and
    read with Go's zero default for a missing key. *)
Fixpoint lbl_index_aux (p : program) (l : nat) (i : nat) (acc : nat) : nat :=
  match p with
  | [] => acc
  | ILabel l' :: p => lbl_index_aux p l (S i) (if l' =? l then i else acc)
  | _ :: p => lbl_index_aux p l (S i) acc
  end.
Definition lbl_index (p : program) (l : nat) : nat := lbl_index_aux p l 0 0.

(** label ids defined in a program, in order *)
Fixpoint labels (p : program) : list nat :=
  match p with
  | [] => []
  | ILabel l :: p => l :: labels p
  | _ :: p => labels p
  end.
