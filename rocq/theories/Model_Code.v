(** Model of vm/op.go and vm/code.go (Encode) and of the operand decoding in vm/vm.go. *)
From Verif Require Import Base Model_Charset Model_Isa.
Local Open Scope nat_scope.

(** op.go:87-107 size *)
Definition insn_size (i : insn) : nat :=
  match i with
  | ILabel _ | INop => 0
  | _ =>
      (match insn_lbl i, i with
       | Some _, _ | None, ICheckBegin _ _ => 4
       | None, _ => 2
       end) +
      (match i with
       | IMemoOpen _ _ | IMemoTreeOpen _ _ | IMemoTreeClose _ | ICaptureBegin _ | ICaptureLate _ _
       | ICaptureFull _ _ | ITestChar _ _ | ITestCharNoChoice _ _ | ITestSet _ _
       | ITestSetNoChoice _ _ | ITestAny _ _ | IError _ | ICheckBegin _ _ | ICheckEnd _ => 2
       | _ => 0
       end)
  end.

(** Go's conversion of an unsigned number to a byte *)
Definition byte_of_nat (n : nat) : byte := N2b (N.of_nat n).

(** code.go:221-227 encodeU8; [None] is the panic *)
Definition encode_u8 (x : N) : option (list byte) :=
  if (256 <=? x)%N then None else Some [N2b x].

(** code.go:247-255 encodeI16: int16 as uint16, little endian *)
Definition encode_i16 (x : Z) : option (list byte) :=
  if ((x <? -32768) || (32768 <=? x))%Z then None
  else let u := Z.to_N (x mod 65536) in Some [N2b u; N2b (N.shiftr u 8)].

(** code.go:257-269 encodeU24: the high byte, then the low 16 bits little endian *)
Definition encode_u24 (x : N) : option (list byte) :=
  if (16777216 <=? x)%N then None
  else
    let i1 := N.land (N.shiftr x 16) 255 in
    let i2 := (x mod 65536)%N in
    Some [N2b i1; N2b i2; N2b (N.shiftr i2 8)].

(** code.go:275-280 encodeBool *)
Definition encode_bool (b : bool) : list byte := if b then [x01] else [x00].

(** vm.go:472-493 decodeU8, decodeI16, decodeU24; [None] is the index out of range panic *)
Definition decode_u8 (b : list byte) : option byte :=
  match b with x :: _ => Some x | [] => None end.
Definition decode_u16 (b : list byte) : option N :=
  match b with x :: y :: _ => Some (bN x + 256 * bN y)%N | _ => None end.
Definition decode_i16 (b : list byte) : option Z :=
  match decode_u16 b with
  | Some u => Some (if (u <? 32768)%N then Z.of_N u else (Z.of_N u - 65536)%Z)
  | None => None
  end.
Definition decode_u24 (b : list byte) : option N :=
  match b with
  | x :: b' => match decode_u16 b' with
               | Some i2 => Some (N.lor (N.shiftl (bN x) 16) i2)
               | None => None
               end
  | [] => None
  end.

(** code.go:20-30 [type code] *)
Record code := Code { c_sets : list cset; c_errors : list string; c_checkers : list nat; c_insns : list byte }.

(** index of the first element equal to [x] *)
Fixpoint find_idx {A} (eqb : A -> A -> bool) (x : A) (l : list A) : option nat :=
  match l with
  | [] => None
  | y :: l => if eqb x y then Some 0 else option_map S (find_idx eqb x l)
  end.

(** code.go:285-310 addSet, addError, addChecker *)
Definition add_set (c : code) (s : cset) : N * code :=
  match find_idx cs_eqb s (c_sets c) with
  | Some i => (N.of_nat i, c)
  | None => (N.of_nat (List.length (c_sets c)), Code (c_sets c ++ [s]) (c_errors c) (c_checkers c) (c_insns c))
  end.
Definition add_error (c : code) (m : string) : N * code :=
  match find_idx String.eqb m (c_errors c) with
  | Some i => (N.of_nat i, c)
  | None => (N.of_nat (List.length (c_errors c)), Code (c_sets c) (c_errors c ++ [m]) (c_checkers c) (c_insns c))
  end.
Definition add_checker (c : code) (k : nat) : N * code :=
  (N.of_nat (List.length (c_checkers c)), Code (c_sets c) (c_errors c) (c_checkers c ++ [k]) (c_insns c)).

(** op.go:7-43 opcodes *)
Definition opcode (i : insn) : byte :=
  match i with
  | IChar _ => x00 | IJump _ => x01 | IChoice _ => x02 | ICall _ => x03 | ICommit _ => x04
  | IReturn => x05 | IFail => x06 | ISet _ => x07 | IAny _ => x08 | IPartialCommit _ => x09
  | ISpan _ => x0a | IBackCommit _ => x0b | IFailTwice => x0c | IEmpty _ => x0d
  | ITestChar _ _ => x0e | ITestCharNoChoice _ _ => x0f | ITestSet _ _ => x10
  | ITestSetNoChoice _ _ => x11 | ITestAny _ _ => x12 | IEnd _ => x13 | INop => x14
  | ICaptureBegin _ => x15 | ICaptureLate _ _ => x16 | ICaptureEnd => x17 | ICaptureFull _ _ => x18
  | ICheckBegin _ _ => x19 | ICheckEnd _ => x1a | IMemoOpen _ _ => x1b | IMemoClose => x1c
  | IMemoTreeOpen _ _ => x1d | IMemoTreeInsert => x1e | IMemoTree => x1f | IMemoTreeClose _ => x20
  | IError _ => x21
  | ILabel _ | IOpenCall _ => x00 (* not encoded *)
  end.

Definition obind {A B} (o : option A) (f : A -> option B) : option B :=
  match o with Some a => f a | None => None end.

(** code.go:90-102: the byte offset of each label (last definition wins, 0 if absent) *)
Fixpoint lbl_offset_aux (p : program) (l : nat) (off acc : nat) : nat :=
  match p with
  | [] => acc
  | ILabel l' :: p => lbl_offset_aux p l off (if l' =? l then off else acc)
  | i :: p => lbl_offset_aux p l (off + insn_size i) acc
  end.
Definition lbl_offset (p : program) (l : nat) : nat := lbl_offset_aux p l 0 0.

(** the argument bytes of one instruction (the switch code.go:108-205); [None] is a panic *)
Definition encode_args (lbl : nat -> nat) (c : code) (i : insn) : option (list byte * code) :=
  let L l := encode_u24 (N.of_nat (lbl l)) in
  let one b := Some ([b], c) in
  let no := Some ([], c) in
  let label l := obind (L l) (fun bs => Some (bs, c)) in
  match i with
  | ILabel _ | INop => no
  | IChar b => one b
  | IJump l | IChoice l | ICall l | ICommit l | IPartialCommit l | IBackCommit l => label l
  | IReturn | IFail | IFailTwice | ICaptureEnd | IMemoClose | IMemoTreeInsert | IMemoTree => no
  | ISet s | ISpan s => let (k, c) := add_set c s in obind (encode_u8 k) (fun bs => Some (bs, c))
  | IAny n => one n
  | IEmpty op => one op
  | ITestChar b l | ITestCharNoChoice b l | ITestAny b l =>
      obind (L l) (fun bs => Some (b :: bs, c))
  | ITestSet s l | ITestSetNoChoice s l =>
      let (k, c) := add_set c s in
      obind (encode_u8 k) (fun b1 => obind (L l) (fun b2 => Some (b1 ++ b2, c)))
  | ICaptureBegin id | IMemoTreeClose id => obind (encode_i16 id) (fun bs => Some (bs, c))
  | ICaptureLate back id | ICaptureFull back id => obind (encode_i16 id) (fun bs => Some (back :: bs, c))
  | IMemoOpen l id | IMemoTreeOpen l id =>
      obind (L l) (fun b1 => obind (encode_i16 id) (fun b2 => Some (b1 ++ b2, c)))
  | ICheckBegin id flag =>
      obind (encode_i16 id) (fun b1 => obind (encode_i16 flag) (fun b2 => Some (b1 ++ b2, c)))
  | ICheckEnd k => let (n, c) := add_checker c k in obind (encode_u24 n) (fun bs => Some (bs, c))
  | IError m => let (n, c) := add_error c m in obind (encode_u24 n) (fun bs => Some (bs, c))
  | IEnd fail => Some (encode_bool fail, c)
  | IOpenCall _ => None
  end.

(** code.go:207-214: opcode, a zero byte if the number of argument bytes is even, the arguments *)
Definition insn_bytes (op : byte) (args : list byte) : list byte :=
  op :: (if Nat.even (List.length args) then [x00] else []) ++ args.

(** code.go:104-215: the second loop of Encode *)
Fixpoint encode_loop (lbl : nat -> nat) (p : program) (c : code) : option code :=
  match p with
  | [] => Some c
  | i :: p =>
      if is_label_or_nop i then encode_loop lbl p c
      else
        match encode_args lbl c i with
        | None => None
        | Some (args, c) =>
            encode_loop lbl p (Code (c_sets c) (c_errors c) (c_checkers c) (c_insns c ++ insn_bytes (opcode i) args))
        end
  end.

(** code.go:82-219 Encode; [None] is a panic *)
Definition encode (p : program) : option code :=
  match encode_loop (lbl_offset p) p (Code [] [] [] []) with
  | Some c => Some (Code (c_sets c) (c_errors c) (c_checkers c) (c_insns c ++ [x13; x00]))
  | None => None
  end.

(** The operand fetches of vm.exec (vm.go:88-436) at [ip]: the decoded instruction, with absolute
    targets.  [None] is an index out of range or "Invalid opcode" panic. *)
Definition decode (c : code) (ip : nat) : option insn :=
  let at_ k := skipn (ip + k) (c_insns c) in
  let u8 k := decode_u8 (at_ k) in
  let u24 k := obind (decode_u24 (at_ k)) (fun n => Some (N.to_nat n)) in
  let i16 k := decode_i16 (at_ k) in
  let set k := obind (u8 k) (fun b => nth_error (c_sets c) (N.to_nat (bN b))) in
  match decode_u8 (at_ 0) with
  | None => None
  | Some op =>
    match op with
    | x00 => obind (u8 1) (fun b => Some (IChar b))
    | x01 => obind (u24 1) (fun l => Some (IJump l))
    | x02 => obind (u24 1) (fun l => Some (IChoice l))
    | x03 => obind (u24 1) (fun l => Some (ICall l))
    | x04 => obind (u24 1) (fun l => Some (ICommit l))
    | x05 => Some IReturn
    | x06 => Some IFail
    | x07 => obind (set 1) (fun s => Some (ISet s))
    | x08 => obind (u8 1) (fun n => Some (IAny n))
    | x09 => obind (u24 1) (fun l => Some (IPartialCommit l))
    | x0a => obind (set 1) (fun s => Some (ISpan s))
    | x0b => obind (u24 1) (fun l => Some (IBackCommit l))
    | x0c => Some IFailTwice
    | x0d => obind (u8 1) (fun b => Some (IEmpty b))
    | x0e => obind (u8 2) (fun b => obind (u24 3) (fun l => Some (ITestChar b l)))
    | x0f => obind (u8 2) (fun b => obind (u24 3) (fun l => Some (ITestCharNoChoice b l)))
    | x10 => obind (u24 3) (fun l => obind (set 2) (fun s => Some (ITestSet s l)))
    | x11 => obind (set 2) (fun s => obind (u24 3) (fun l => Some (ITestSetNoChoice s l)))
    | x12 => obind (u8 2) (fun n => obind (u24 3) (fun l => Some (ITestAny n l)))
    | x13 => obind (u8 1) (fun b => Some (IEnd (byte_eqb b x01)))
    | x15 => obind (i16 2) (fun id => Some (ICaptureBegin id))
    | x16 => obind (u8 1) (fun b => obind (i16 2) (fun id => Some (ICaptureLate b id)))
    | x17 => Some ICaptureEnd
    | x18 => obind (u8 1) (fun b => obind (i16 2) (fun id => Some (ICaptureFull b id)))
    | x19 => obind (i16 2) (fun id => obind (i16 4) (fun fl => Some (ICheckBegin id fl)))
    | x1a => obind (u24 1) (fun n => obind (nth_error (c_checkers c) n) (fun k => Some (ICheckEnd k)))
    | x1b => obind (u24 1) (fun l => obind (i16 4) (fun id => Some (IMemoOpen l id)))
    | x1c => Some IMemoClose
    | x1d => obind (u24 1) (fun l => obind (i16 4) (fun id => Some (IMemoTreeOpen l id)))
    | x1e => Some IMemoTreeInsert
    | x1f => Some IMemoTree
    | x20 => obind (i16 2) (fun id => Some (IMemoTreeClose id))
    | x21 => obind (u24 1) (fun n => obind (nth_error (c_errors c) n) (fun m => Some (IError m)))
    | _ => None
    end
  end.

(** op.go:46-84 the constants sz* added to ip after each instruction *)
Definition sz (i : insn) : nat :=
  match i with
  | ILabel _ | INop | IOpenCall _ => 0
  | IChar _ | IReturn | IFail | ISet _ | IAny _ | ISpan _ | IFailTwice | IEnd _ | IEmpty _
  | ICaptureEnd | IMemoClose | IMemoTreeInsert | IMemoTree => 2
  | ICaptureBegin _ | ICaptureLate _ _ | ICaptureFull _ _ | IMemoTreeClose _ | ICheckEnd _ | IError _
  | IJump _ | IChoice _ | ICall _ | ICommit _ | IPartialCommit _ | IBackCommit _ => 4
  | ICheckBegin _ _ | ITestChar _ _ | ITestCharNoChoice _ _ | ITestSet _ _ | ITestSetNoChoice _ _
  | ITestAny _ _ | IMemoOpen _ _ | IMemoTreeOpen _ _ => 6
  end.
