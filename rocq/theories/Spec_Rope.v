(** What a rope stands for: a byte string, with lines ended by a byte. *)
From Coq Require Import ZArith.
From Verif Require Import Base Model_Rope.
Local Open Scope nat_scope.

(** [r] is a rope obtained by the operations of the package from ropes with options that satisfy [P],
    and [b] is what the same operations do on plain byte strings *)
Inductive made (P : opts -> Prop) : rope -> list byte -> Prop :=
| made_new : forall o b r, P o -> rp_new o b = Some r -> made P r b
| made_insert : forall r b pos v r', made P r b -> pos <= List.length b -> rp_insert r pos v = Some r' ->
    made P r' (firstn pos b ++ v ++ skipn pos b)
| made_remove : forall r b start en r', made P r b -> start <= en <= List.length b -> rp_remove r start en = Some r' ->
    made P r' (firstn start b ++ skipn en b)
| made_left : forall r b i l x, made P r b -> i <= List.length b -> rp_split_at r i = Some (l, x) -> made P l (firstn i b)
| made_right : forall r b i x l, made P r b -> i <= List.length b -> rp_split_at r i = Some (x, l) -> made P l (skipn i b)
| made_join : forall a b more s t us r, made P a s -> made P b t -> Forall2 (made P) more us -> rp_join_all a b more = Some r ->
    made P r (s ++ t ++ concat us).

(** the position after the bytes [b], from position (line, col), where [c] ends a line *)
Definition step_loc (c : byte) (l : loc) (x : byte) : loc :=
  if byte_eqb x c then Loc (l_line l + 1) 0 else Loc (l_line l) (l_col l + 1).
Definition loc_of (c : byte) (b : list byte) : loc := fold_left (step_loc c) b (Loc 0 0).

(** options that work *)
Definition splits (o : opts) : Prop := 1 <= o_split o.
Definition line_ends (c : byte) (o : opts) : Prop := splits o /\ o_sep o = [c].

(** a writer that takes everything *)
Definition store (st : list byte) (b : list byte) : list byte * nat * bool := (st ++ b, List.length b, false).
(** a writer with room for [k] bytes *)
Definition limited (k : nat) (st : list byte) (b : list byte) : list byte * nat * bool :=
  let room := k - List.length st in (st ++ firstn room b, Nat.min room (List.length b), room <? List.length b).

(** the two sides of every node are within the ratio RebalanceRatio *)
Fixpoint balanced (r : rope) : Prop :=
  match r with
  | RNode o a b _ _ => rp_len a * o_den o <= o_num o * rp_len b /\ rp_len b * o_den o <= o_num o * rp_len a /\ balanced a /\ balanced b
  | _ => True
  end.

(** separators of any length: [sep] occurs in [b] *)
Definition within (sep b : list byte) : Prop := exists u v, b = u ++ sep ++ v.
(** [parts] are what is left of [b] when the separators are cut out of it from left to right *)
Fixpoint cut_at (sep : list byte) (parts : list (list byte)) (b : list byte) : Prop :=
  match parts with
  | [] => False
  | [p] => b = p /\ ~ within sep p
  | p :: r => exists b', b = p ++ sep ++ b' /\ ~ within sep (p ++ removelast sep) /\ cut_at sep r b'
  end.
