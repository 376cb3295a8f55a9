(** Model of the serialization in vm/code.go:38-79: ToBytes, FromBytes, ToJson and FromJson.

    The work is done by encoding/json, encoding/gob and compress/gzip of the Go library.  The model has
    their rules for the types that occur here, on trees of values: the texts and byte streams in which
    the trees are written, and gzip, are not modelled. *)
From Coq Require Import ZArith Ascii String DecimalString DecimalZ.
From Verif Require Import Base Model_Charset Model_Isa Model_Capture Model_Code Model_Checker.
Local Open Scope nat_scope.

Inductive json := JNull | JNum (n : N) | JStr (s : list byte) | JArr (l : list json) | JObj (l : list (list byte * json)).

(** The objects behind an isa.Checker: isa/checker.go:15 MapChecker with its keys, 40-42 a pointer to a
    BackReference with its symbols, and a checker of the user's own, whose type nobody registered with
    gob; [j] is what json.Marshal makes of it, if it does not fail. *)
Inductive checker_obj :=
| OMap (keys : list (list byte))
| ORef (symbols : list (Z * list byte))
| OUser (j : option json).

(** vm/code.go:20-30 [type code] with the checkers themselves; [None] is a nil interface *)
Record gcode := GCode { g_sets : list cset; g_errors : list (list byte); g_checkers : list (option checker_obj); g_insns : list byte }.
Definition bytes_of (s : string) : list byte := list_byte_of_string s.
(** the code that Encode returned, with the objects its checkers stand for *)
Definition with_objects (obj : nat -> checker_obj) (c : code) : gcode :=
  GCode (c_sets c) (map bytes_of (c_errors c)) (map (fun k => Some (obj k)) (c_checkers c)) (c_insns c).

(** * JSON *)

(** unicode/utf8: number of bytes of a character by its first byte, and the values allowed for its
    second byte *)
Local Open Scope N_scope.
Definition lead (b : byte) : option (nat * N * N) :=
  let n := bN b in
  if n <? 0x80 then Some (1%nat, 0, 0)
  else if n <? 0xC2 then None
  else if n <? 0xE0 then Some (2%nat, 0x80, 0xBF)
  else if n =? 0xE0 then Some (3%nat, 0xA0, 0xBF)
  else if n =? 0xED then Some (3%nat, 0x80, 0x9F)
  else if n <? 0xF0 then Some (3%nat, 0x80, 0xBF)
  else if n =? 0xF0 then Some (4%nat, 0x90, 0xBF)
  else if n <? 0xF4 then Some (4%nat, 0x80, 0xBF)
  else if n =? 0xF4 then Some (4%nat, 0x80, 0x8F)
  else None.
Definition within (lo hi : N) (b : byte) : bool := (lo <=? bN b) && (bN b <=? hi).
Definition cont (b : byte) : bool := within 0x80 0xBF b.
Local Close Scope N_scope.
(** a string as json.Marshal writes it: each byte that is not part of a character of valid UTF-8 becomes
    the character U+FFFD *)
Fixpoint coerce (s : list byte) : list byte :=
  match s with
  | [] => []
  | b0 :: r =>
    let bad := xef :: xbf :: xbd :: coerce r in
    match lead b0 with
    | Some (1, _, _) => b0 :: coerce r
    | Some (2, lo, hi) =>
        match r with
        | b1 :: r1 => if within lo hi b1 then b0 :: b1 :: coerce r1 else bad
        | [] => bad
        end
    | Some (3, lo, hi) =>
        match r with
        | b1 :: b2 :: r2 => if within lo hi b1 && cont b2 then b0 :: b1 :: b2 :: coerce r2 else bad
        | _ => bad
        end
    | Some (_, lo, hi) =>
        match r with
        | b1 :: b2 :: b3 :: r3 => if within lo hi b1 && cont b2 && cont b3 then b0 :: b1 :: b2 :: b3 :: coerce r3 else bad
        | _ => bad
        end
    | None => bad
    end
  end.

(** encoding/base64, StdEncoding *)
Definition b64_alphabet : list byte :=
  list_byte_of_string "ABCDEFGHIJKLMNOPQRSTUVWXYZabcdefghijklmnopqrstuvwxyz0123456789+/".
Definition b64_char (n : N) : byte := nth (N.to_nat n) b64_alphabet x00.
Definition b64_pad : byte := x3d.
Fixpoint b64_encode (s : list byte) : list byte :=
  match s with
  | [] => []
  | [a] => let n := (bN a * 16)%N in [b64_char (n / 64); b64_char (n mod 64); b64_pad; b64_pad]
  | [a; b] => let n := ((bN a * 256 + bN b) * 4)%N in
      [b64_char (n / 4096); b64_char (n / 64 mod 64); b64_char (n mod 64); b64_pad]
  | a :: b :: c :: r => let n := ((bN a * 256 + bN b) * 256 + bN c)%N in
      b64_char (n / 262144) :: b64_char (n / 4096 mod 64) :: b64_char (n / 64 mod 64) :: b64_char (n mod 64) :: b64_encode r
  end.
Definition b64_value (c : byte) : option N := option_map N.of_nat (find_idx byte_eqb c b64_alphabet).
Definition is_nil {A} (l : list A) : bool := match l with [] => true | _ => false end.
Fixpoint b64_decode (s : list byte) : option (list byte) :=
  match s with
  | [] => Some []
  | c1 :: c2 :: c3 :: c4 :: r =>
    match b64_value c1, b64_value c2 with
    | Some v1, Some v2 =>
      if byte_eqb c3 b64_pad then
        if byte_eqb c4 b64_pad && is_nil r then Some [N2b ((v1 * 64 + v2) / 16)] else None
      else match b64_value c3 with
      | None => None
      | Some v3 =>
        if byte_eqb c4 b64_pad then
          if is_nil r then let n := (((v1 * 64 + v2) * 64 + v3) / 4)%N in Some [N2b (n / 256); N2b (n mod 256)] else None
        else match b64_value c4, b64_decode r with
        | Some v4, Some bs => let n := (((v1 * 64 + v2) * 64 + v3) * 64 + v4)%N in
            Some (N2b (n / 65536) :: N2b (n / 256 mod 256) :: N2b (n mod 256) :: bs)
        | _, _ => None
        end
      end
    | _, _ => None
    end
  | _ => None
  end.

(** decimal text of an integer, as a map key *)
Definition dec_text (z : Z) : list byte := list_byte_of_string (NilZero.string_of_int (Z.to_int z)).

(** json.Marshal of a charset.Set, charset.go:18-20 *)
Definition set_json (s : cset) : json :=
  JObj [(bytes_of "Bits", JArr [JNum (cw0 s); JNum (cw1 s); JNum (cw2 s); JNum (cw3 s)])].
(** json.Marshal of a slice other than []byte; Encode leaves Errors and Checkers nil when they have no
    elements, and Sets is never nil, code.go:83-88 *)
Definition slice_json (nil_if_empty : bool) (l : list json) : json :=
  if nil_if_empty && is_nil l then JNull else JArr l.
Definition checker_json (k : option checker_obj) : option json :=
  match k with
  | None => Some JNull
  | Some (OMap keys) => Some (JObj (map (fun s => (coerce s, JObj [])) keys))
  | Some (ORef syms) => Some (JObj [(bytes_of "Symbols", JObj (map (fun '(i, s) => (dec_text i, JStr (coerce s))) syms))])
  | Some (OUser j) => j
  end.
Fixpoint all_some {A} (l : list (option A)) : option (list A) :=
  match l with
  | [] => Some []
  | Some x :: l => option_map (cons x) (all_some l)
  | None :: _ => None
  end.
(** code.go:67-69 ToJson; [None] is an error *)
Definition to_json (c : gcode) : option json :=
  match all_some (map checker_json (g_checkers c)) with
  | None => None
  | Some ks => Some (JObj
      [(bytes_of "Sets", slice_json false (map set_json (g_sets c)));
       (bytes_of "Errors", slice_json true (map (fun s => JStr (coerce s)) (g_errors c)));
       (bytes_of "Checkers", slice_json true ks);
       (bytes_of "Insns", JStr (b64_encode (g_insns c)))])
  end.

(** json.Unmarshal into the parts of a code.  Each function has the value so far and returns the new one
    with a flag: true when there was an error.  Unmarshal goes on after a value of the wrong type and
    reports the first such error at the end.  Keys must be those of the fields: the library also accepts
    other cases. *)
Definition un_uint64 (j : json) (v : N) : N * bool :=
  match j with
  | JNull => (v, false)
  | JNum n => if (n <? 2 ^ 64)%N then (n, false) else (v, true)
  | _ => (v, true)
  end.
Definition un_string (j : json) (v : list byte) : list byte * bool :=
  match j with JNull => (v, false) | JStr s => (s, false) | _ => (v, true) end.
Definition un_bytes (j : json) (v : list byte) : list byte * bool :=
  match j with
  | JNull => ([], false)
  | JStr s => match b64_decode s with Some b => (b, false) | None => (v, true) end
  | _ => (v, true)
  end.
(** a value other than null does not go into an interface that has methods *)
Definition un_checker (j : json) (v : option checker_obj) : option checker_obj * bool :=
  match j with JNull => (None, false) | _ => (v, true) end.
(** the elements of a slice start as zero values *)
Fixpoint un_list {A} (un : json -> A -> A * bool) (zero : A) (l : list json) : list A * bool :=
  match l with
  | [] => ([], false)
  | j :: l => let (a, e) := un j zero in let (r, e') := un_list un zero l in (a :: r, e || e')
  end.
Definition un_slice {A} (un : json -> A -> A * bool) (zero : A) (j : json) (v : list A) : list A * bool :=
  match j with
  | JNull => ([], false)
  | JArr l => un_list un zero l
  | _ => (v, true)
  end.
(** an array of four: elements too many are dropped, missing ones become zero *)
Definition un_array4 (j : json) (s : cset) : cset * bool :=
  match j with
  | JNull => (s, false)
  | JArr l =>
      let at_ i v := match nth_error l i with Some j => un_uint64 j v | None => (0%N, false) end in
      let (a, e0) := at_ 0 (cw0 s) in let (b, e1) := at_ 1 (cw1 s) in
      let (c, e2) := at_ 2 (cw2 s) in let (d, e3) := at_ 3 (cw3 s) in
      (CSet a b c d, e0 || e1 || e2 || e3)
  | _ => (s, true)
  end.
Definition zero_set : cset := CSet 0 0 0 0.
Definition un_set (j : json) (s : cset) : cset * bool :=
  match j with
  | JNull => (s, false)
  | JObj fs => fold_left (fun '(s, e) '(k, j) =>
      if bytes_eqb k (bytes_of "Bits") then let (s', e') := un_array4 j s in (s', e || e') else (s, e)) fs (s, false)
  | _ => (s, true)
  end.
Definition zero_code : gcode := GCode [] [] [] [].
Definition un_field (a : gcode * bool) (f : list byte * json) : gcode * bool :=
  let (c, e) := a in
  let (k, j) := f in
  if bytes_eqb k (bytes_of "Sets") then
    let (v, e') := un_slice un_set zero_set j (g_sets c) in (GCode v (g_errors c) (g_checkers c) (g_insns c), e || e')
  else if bytes_eqb k (bytes_of "Errors") then
    let (v, e') := un_slice un_string [] j (g_errors c) in (GCode (g_sets c) v (g_checkers c) (g_insns c), e || e')
  else if bytes_eqb k (bytes_of "Checkers") then
    let (v, e') := un_slice un_checker None j (g_checkers c) in (GCode (g_sets c) (g_errors c) v (g_insns c), e || e')
  else if bytes_eqb k (bytes_of "Insns") then
    let (v, e') := un_bytes j (g_insns c) in (GCode (g_sets c) (g_errors c) (g_checkers c) v, e || e')
  else (c, e).
(** code.go:72-79 FromJson *)
Definition from_json (j : json) : gcode * bool :=
  match j with
  | JNull => (zero_code, false)
  | JObj fs => fold_left un_field fs (zero_code, false)
  | _ => (zero_code, true)
  end.

(** * gob *)

(** What gob sends: a structure as its fields that are not zero, with their numbers; the value of an
    interface with the name under which its type is registered. *)
Inductive gob :=
| GUint (n : N) | GInt (z : Z) | GBytes (s : list byte) | GList (l : list gob)
| GStruct (fs : list (nat * gob)) | GMap (l : list (gob * gob)) | GNil | GIface (name : list byte) (v : gob).

Definition gob_field (n : nat) (l : list gob) : list (nat * gob) := if is_nil l then [] else [(n, GList l)].
Definition gob_set (s : cset) : gob :=
  GStruct (if ((cw0 s =? 0) && (cw1 s =? 0) && (cw2 s =? 0) && (cw3 s =? 0))%N then []
           else [(0, GList [GUint (cw0 s); GUint (cw1 s); GUint (cw2 s); GUint (cw3 s)])]).
Definition map_name : list byte := bytes_of "github.com/zyedidia/gpeg/isa.MapChecker".
Definition ref_name : list byte := bytes_of "github.com/zyedidia/gpeg/isa.BackReference".
(** The entries of a map are sent in any order: [ord] and [ord'] stand for the choice.  A pointer is sent
    as what it points to, under the name of that type, code.go:37-40. *)
Definition gob_checker (ord : list (list byte) -> list (list byte)) (ord' : list (Z * list byte) -> list (Z * list byte))
    (k : option checker_obj) : option gob :=
  match k with
  | None => Some GNil
  | Some (OMap keys) => Some (GIface map_name (GMap (map (fun s => (GBytes s, GStruct [])) (ord keys))))
  | Some (ORef syms) => Some (GIface ref_name (GStruct
      (if is_nil syms then [] else [(0, GMap (map (fun '(i, s) => (GInt i, GBytes s)) (ord' syms)))])))
  | Some (OUser _) => None
  end.
(** code.go:43-50 ToBytes; [None] is an error *)
Definition to_gob ord ord' (c : gcode) : option gob :=
  match all_some (map (gob_checker ord ord') (g_checkers c)) with
  | None => None
  | Some ks => Some (GStruct
      (gob_field 0 (map gob_set (g_sets c)) ++ gob_field 1 (map GBytes (g_errors c)) ++
       gob_field 2 ks ++ (if is_nil (g_insns c) then [] else [(3, GBytes (g_insns c))])))
  end.

(** Decoding; [None] is an error, after which the code is not used. *)
Definition ug_uint (g : gob) : option N := match g with GUint n => Some n | _ => None end.
Definition ug_bytes (g : gob) : option (list byte) := match g with GBytes s => Some s | _ => None end.
Definition ug_list {A} (ug : gob -> option A) (g : gob) : option (list A) :=
  match g with GList l => all_some (map ug l) | _ => None end.
Definition ug_set (g : gob) : option cset :=
  match g with
  | GStruct [] => Some zero_set
  | GStruct [(0, v)] => match ug_list ug_uint v with Some [a; b; c; d] => Some (CSet a b c d) | _ => None end
  | _ => None
  end.
(** The type is the one registered under the name: MapChecker for the first, BackReference, not a pointer
    to it, for the second.  The value must be assignable to isa.Checker: only a pointer to a BackReference
    has the method Check, isa/checker.go:50. *)
Definition ug_checker (g : gob) : option (option checker_obj) :=
  match g with
  | GNil => Some None
  | GIface name v =>
      if bytes_eqb name map_name then
        match v with
        | GMap l => option_map (fun ks => Some (OMap ks)) (all_some (map (fun e => ug_bytes (fst e)) l))
        | _ => None
        end
      else None
  | _ => None
  end.
Definition field {A} (ug : gob -> option A) (zero : A) (n : nat) (fs : list (nat * gob)) : option A :=
  match find (fun f => fst f =? n) fs with
  | None => Some zero
  | Some (_, g) => ug g
  end.
(** code.go:53-64 FromBytes *)
Definition from_gob (g : gob) : option gcode :=
  match g with
  | GStruct fs =>
      match field (ug_list ug_set) [] 0 fs, field (ug_list ug_bytes) [] 1 fs, field (ug_list ug_checker) [] 2 fs, field ug_bytes [] 3 fs with
      | Some s, Some e, Some k, Some i => Some (GCode s e k i)
      | _, _, _, _ => None
      end
  | _ => None
  end.
