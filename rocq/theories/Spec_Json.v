(** The language JSON, as in RFC 8259, with three parameters in which grammars/json.peg differs from it.  Texts are lists of
    bytes; that strings are valid UTF-8 is not asked for. *)
From Verif Require Import Base.
Local Open Scope nat_scope.

Definition between (lo hi : N) (b : byte) : bool := ((lo <=? bN b) && (bN b <=? hi))%N.
Definition one_of (l : list byte) (b : byte) : bool := existsb (byte_eqb b) l.

(* ---------- numbers: [ minus ] int [ frac ] [ exp ] ---------- *)
Definition is_digit (b : byte) : bool := between 48 57 b.
Definition digits (u : list byte) : Prop := u <> [] /\ Forall (fun b => is_digit b = true) u.
Definition optional (P : list byte -> Prop) (u : list byte) : Prop := u = [] \/ P u.
Inductive int_part : list byte -> Prop :=
| int_zero : int_part [x30]
| int_other : forall d u, between 49 57 d = true -> Forall (fun b => is_digit b = true) u -> int_part (d :: u).
Definition fract_part (u : list byte) : Prop := exists d, u = x2e :: d /\ digits d.
Definition exp_part (u : list byte) : Prop :=
  exists e sign d, u = e :: sign ++ d /\ one_of [x65; x45] e = true /\ optional (fun s => s = [x2b] \/ s = [x2d]) sign /\ digits d.
Definition number (u : list byte) : Prop :=
  exists m i f e, u = m ++ i ++ f ++ e /\ optional (fun m => m = [x2d]) m /\ int_part i /\ optional fract_part f /\ optional exp_part e.

Section Json.
Variable blank : byte -> bool.              (* white space *)
Variable letter : byte -> bool.             (* what may follow a backslash, except u *)
Variable allowed : list bool -> Prop.       (* which sequences of escapes (true) and other characters (false) may form a string *)

(* ---------- strings ---------- *)
Definition unescaped (b : byte) : bool := (32 <=? bN b)%N && negb (one_of [x22; x5c] b).
Definition hex (b : byte) : bool := between 48 57 b || between 65 70 b || between 97 102 b.
Inductive chars : list bool -> list byte -> Prop :=
| ch_nil : chars [] []
| ch_plain : forall b l u, unescaped b = true -> chars l u -> chars (false :: l) (b :: u)
| ch_letter : forall b l u, letter b = true -> chars l u -> chars (true :: l) (x5c :: b :: u)
| ch_unicode : forall a b c d l u, hex a = true -> hex b = true -> hex c = true -> hex d = true -> chars l u -> chars (true :: l) (x5c :: x75 :: a :: b :: c :: d :: u).
Definition jstring (u : list byte) : Prop := exists l v, chars l v /\ allowed l /\ u = x22 :: v ++ [x22].

(* ---------- values ---------- *)
Definition blanks (w : list byte) : Prop := Forall (fun b => blank b = true) w.
Inductive value : list byte -> Prop :=
| v_number : forall u, number u -> value u
| v_string : forall u, jstring u -> value u
| v_true : value [x74; x72; x75; x65]
| v_false : value [x66; x61; x6c; x73; x65]
| v_null : value [x6e; x75; x6c; x6c]
| v_object0 : forall w, blanks w -> value (x7b :: w ++ [x7d])
| v_object : forall u, members u -> value (x7b :: u ++ [x7d])
| v_array0 : forall w, blanks w -> value (x5b :: w ++ [x5d])
| v_array : forall u, elements u -> value (x5b :: u ++ [x5d])
with element : list byte -> Prop :=
| e_value : forall w u w', blanks w -> value u -> blanks w' -> element (w ++ u ++ w')
with member : list byte -> Prop :=
| m_pair : forall w u w' e, blanks w -> jstring u -> blanks w' -> element e -> member (w ++ u ++ w' ++ x3a :: e)
with members : list byte -> Prop :=
| ms_one : forall u, member u -> members u
| ms_more : forall u us, member u -> members us -> members (u ++ x2c :: us)
with elements : list byte -> Prop :=
| es_one : forall u, element u -> elements u
| es_more : forall u us, element u -> elements us -> elements (u ++ x2c :: us).
End Json.

(** RFC 8259 *)
Definition rfc_blank : byte -> bool := one_of [x20; x09; x0a; x0d].
Definition rfc_letter : byte -> bool := one_of [x22; x5c; x2f; x62; x66; x6e; x72; x74].
Definition rfc_json : list byte -> Prop := element rfc_blank rfc_letter (fun _ => True).
(** grammars/json.peg: also vertical tab and form feed are white space; one may escape the braces and the bar, but not the
    slash; a string does not start with two escapes *)
Definition peg_blank : byte -> bool := fun b => between 9 13 b || byte_eqb b x20.
Definition peg_letter : byte -> bool := one_of [x22; x7b; x7c; x5c; x62; x66; x6e; x72; x74].
Definition peg_allowed (l : list bool) : Prop := match l with true :: true :: _ => False | _ => True end.
Definition peg_json : list byte -> Prop := element peg_blank peg_letter peg_allowed.
