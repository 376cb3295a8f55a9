(** Model of isa/isa.go:301-521: the String methods of instructions and of programs, which cmd/gpeg prints. *)
From Coq Require Import String Decimal DecimalString.
From Verif Require Import Base Model_Charset Model_Isa Model_String.
Local Open Scope list_scope.
Local Open Scope nat_scope.

(** a Go string constant *)
Definition lit (s : string) : list byte := list_byte_of_string s.

(** fmt.Sprintf with %v of an integer (Go standard library) *)
Definition dec_n (n : N) : list byte := lit (NilZero.string_of_uint (N.to_uint n)).
Definition dec_z (z : Z) : list byte := lit (NilZero.string_of_int (Z.to_int z)).
Definition dec_b (b : byte) : list byte := dec_n (bN b).

(** strconv.QuoteRune (Go standard library, trusted) for the runes 0..255: as QuoteRuneToASCII, but the
    printable characters from 161 on are written in UTF-8 *)
Definition quote_latin (b : byte) : list byte :=
  let n := bN b in
  if (161 <=? n)%N && negb (n =? 173)%N then [x27; N2b (192 + n / 64); N2b (128 + n mod 64); x27] else quote_rune b.

(** isa.go:302-304 *)
Definition lbl_string (l : nat) : list byte := lit "L" ++ dec_n (N.of_nat l).

(** isa.go:505-521 emptyToString *)
Definition empty_string (op : byte) : list byte :=
  match op with
  | x01 => lit "BeginLine"
  | x02 => lit "EndLine"
  | x04 => lit "BeginText"
  | x08 => lit "EndText"
  | x10 => lit "WordBoundary"
  | x20 => lit "NoWordBoundary"
  | _ => lit "Unknown"
  end.

Section Listing.
(** strconv.QuoteToASCII of the Go standard library, a parameter *)
Variable quote : string -> list byte.
(** how fmt prints a checker, a parameter *)
Variable show : nat -> list byte.

(** isa.go:301-480, pattern/compile.go:48-50 *)
Definition insn_string (i : insn) : list byte :=
  match i with
  | ILabel l => lbl_string l
  | IChar b => lit "Char " ++ quote_latin b
  | IJump l => lit "Jump " ++ lbl_string l
  | IChoice l => lit "Choice " ++ lbl_string l
  | ICall l => lit "Call " ++ lbl_string l
  | ICommit l => lit "Commit " ++ lbl_string l
  | IReturn => lit "Return"
  | IFail => lit "Fail"
  | ISet s => lit "Set " ++ cs_string s
  | IAny n => lit "Any " ++ dec_b n
  | IPartialCommit l => lit "PartialCommit " ++ lbl_string l
  | ISpan s => lit "Span " ++ cs_string s
  | IBackCommit l => lit "BackCommit " ++ lbl_string l
  | IFailTwice => lit "FailTwice"
  | IEmpty op => lit "Empty " ++ empty_string op
  | ITestChar b l => lit "TestChar " ++ quote_latin b ++ lit " " ++ lbl_string l
  | ITestCharNoChoice b l => lit "TestCharNoChoice " ++ quote_latin b ++ lit " " ++ lbl_string l
  | ITestSet s l => lit "TestSet " ++ cs_string s ++ lit " " ++ lbl_string l
  | ITestSetNoChoice s l => lit "TestSetNoChoice " ++ cs_string s ++ lit " " ++ lbl_string l
  | ITestAny n l => lit "TestAny " ++ dec_b n ++ lit " " ++ lbl_string l
  | IEnd fail => lit "End " ++ (if fail then lit "Fail" else lit "Success")
  | INop => lit "Nop"
  | IMemoOpen l id => lit "MemoOpen " ++ lbl_string l ++ lit " " ++ dec_z id
  | IMemoClose => lit "MemoClose"
  | IMemoTreeOpen l id => lit "MemoTreeOpen " ++ lbl_string l ++ lit " " ++ dec_z id
  | IMemoTreeInsert => lit "MemoTreeInsert"
  | IMemoTree => lit "MemoTree"
  | IMemoTreeClose id => lit "MemoTreeClose " ++ dec_z id
  | ICaptureBegin id => lit "Capture begin " ++ dec_z id
  | ICaptureLate back id => lit "Capture late " ++ dec_b back ++ lit " " ++ dec_z id
  | ICaptureEnd => lit "Capture end"
  | ICaptureFull back id => lit "Capture full " ++ dec_b back ++ lit " " ++ dec_z id
  | ICheckBegin _ _ => lit "CheckBegin"
  | ICheckEnd ck => lit "CheckEnd " ++ show ck
  | IError msg => lit "Error " ++ quote msg
  | IOpenCall name => lit "OpenCall " ++ lit name
  end.

(** isa.go:486-500: the loop; [last] tells whether the last instruction, without Nops, was a label *)
Fixpoint prog_lines (last : bool) (p : program) : list byte :=
  match p with
  | [] => []
  | INop :: p => prog_lines last p
  | ILabel l :: p => (if last then [x0a] else []) ++ insn_string (ILabel l) ++ lit ":" ++ prog_lines true p
  | i :: p => [x09] ++ insn_string i ++ [x0a] ++ prog_lines false p
  end.

(** isa.go:483-503 *)
Definition prog_string (p : program) : list byte := prog_lines false p ++ [x0a].
End Listing.
