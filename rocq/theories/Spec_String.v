(** How a person reads the text of a character set: characters and ranges of characters as Go writes
    them, between commas and braces.  Independent of Set.String. *)
From Verif Require Import Base.

(** the value of a hexadecimal digit *)
Definition digit (b : byte) : option N :=
  let n := bN b in
  if (48 <=? n)%N && (n <=? 57)%N then Some (n - 48)%N
  else if (97 <=? n)%N && (n <=? 102)%N then Some (n - 87)%N
  else None.

Fixpoint digits (k : nat) (t : list byte) (acc : N) : option (N * list byte) :=
  match k, t with
  | O, _ => Some (acc, t)
  | S k, b :: t => match digit b with Some d => digits k t (16 * acc + d) | None => None end
  | S _, [] => None
  end.

(** what follows a backslash in a character of Go *)
Definition read_escape (t : list byte) : option (N * list byte) :=
  match t with
  | x61 :: t => Some (7%N, t)
  | x62 :: t => Some (8%N, t)
  | x66 :: t => Some (12%N, t)
  | x6e :: t => Some (10%N, t)
  | x72 :: t => Some (13%N, t)
  | x74 :: t => Some (9%N, t)
  | x76 :: t => Some (11%N, t)
  | x5c :: t => Some (92%N, t)
  | x27 :: t => Some (39%N, t)
  | x78 :: t => digits 2 t 0
  | x75 :: t => digits 4 t 0
  | _ => None
  end.

(** a character in single quotes *)
Definition read_rune (t : list byte) : option (N * list byte) :=
  match t with
  | x27 :: t =>
      match (match t with
             | x5c :: t => read_escape t
             | x27 :: _ => None
             | b :: t => if (bN b <? 128)%N then Some (bN b, t) else None
             | [] => None
             end) with
      | Some (n, x27 :: t) => Some (n, t)
      | _ => None
      end
  | _ => None
  end.

(** a character or a range *)
Definition read_item (t : list byte) : option (N * N * list byte) :=
  match read_rune t with
  | Some (lo, x2e :: x2e :: t) =>
      match read_rune t with
      | Some (hi, t) => Some (lo, hi, t)
      | None => None
      end
  | Some (lo, t) => Some (lo, lo, t)
  | None => None
  end.

(** items with commas between them, up to the brace that ends them, and the text after it *)
Fixpoint read_items (fuel : nat) (t : list byte) : option (list (N * N) * list byte) :=
  match fuel with
  | O => None
  | S fuel =>
      match read_item t with
      | Some (lo, hi, x7d :: t) => Some ([(lo, hi)], t)
      | Some (lo, hi, x2c :: t) =>
          match read_items fuel t with
          | Some (l, t) => Some ((lo, hi) :: l, t)
          | None => None
          end
      | _ => None
      end
  end.

Definition read_braces (t : list byte) : option (list (N * N) * list byte) :=
  match t with
  | x7b :: x7d :: t => Some ([], t)
  | x7b :: t => read_items (length t) t
  | _ => None
  end.

(** a text that is a set and nothing else *)
Definition read_set (t : list byte) : option (list (N * N)) :=
  match read_braces t with
  | Some (l, []) => Some l
  | _ => None
  end.

(** the ranges are in order, and between two of them there is room for a byte that is in none *)
Fixpoint tidy (l : list (N * N)) : Prop :=
  match l with
  | [] => True
  | (lo, hi) :: l => (lo <= hi)%N /\ match l with [] => True | (lo', _) :: _ => (hi + 1 < lo')%N end /\ tidy l
  end.
