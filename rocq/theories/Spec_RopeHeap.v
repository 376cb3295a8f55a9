(** What a program that works with ropes sees, if ropes and slices were byte strings. *)
From Coq Require Import ZArith.
From Verif Require Import Base Model_Rope Model_RopeHeap Spec_Rope.
Local Open Scope nat_scope.

(** the ropes, and the slices of the program, each with whether it was given to New *)
Record sworld := SW { s_ropes : list (option (list byte)); s_bufs : list (list byte * bool) }.
(** [sees w op w']: [op] is used within its rules in [w], and [w'] is what it should give;
    the options of the ropes satisfy [P] *)
Inductive sees (P : opts -> Prop) : sworld -> rop -> sworld -> Prop :=
| sees_buf : forall rs bs b, sees P (SW rs bs) (WBuf b) (SW rs (bs ++ [(b, false)]))
(** a slice that was given to New must not be written *)
| sees_fill : forall rs bs i b c, nth_error bs i = Some (b, false) -> List.length c = List.length b ->
    sees P (SW rs bs) (WFill i c) (SW rs (rset bs i (c, false)))
| sees_new : forall rs bs i b l o, nth_error bs i = Some (b, l) -> P o ->
    sees P (SW rs bs) (WNew o i) (SW (rs ++ [Some b]) (rset bs i (b, true)))
| sees_insert : forall rs bs k t i v l pos, rget rs k = Some t -> nth_error bs i = Some (v, l) -> pos <= List.length t ->
    sees P (SW rs bs) (WInsert k pos i) (SW (rset rs k (Some (firstn pos t ++ v ++ skipn pos t))) bs)
| sees_remove : forall rs bs k t start en, rget rs k = Some t -> start <= en <= List.length t ->
    sees P (SW rs bs) (WRemove k start en) (SW (rset rs k (Some (firstn start t ++ skipn en t))) bs)
| sees_split : forall rs bs k t i, rget rs k = Some t -> i <= List.length t ->
    sees P (SW rs bs) (WSplit k i) (SW (rset rs k None ++ [Some (firstn i t); Some (skipn i t)]) bs)
| sees_join : forall rs bs j k a b, j <> k -> rget rs j = Some a -> rget rs k = Some b ->
    sees P (SW rs bs) (WJoin j k) (SW (rset (rset rs j None) k None ++ [Some (a ++ b)]) bs).
(** a program that keeps to the rules *)
Inductive seen (P : opts -> Prop) : list rop -> sworld -> Prop :=
| seen_nil : seen P [] (SW [] [])
| seen_op : forall ops op w w', seen P ops w -> sees P w op w' -> seen P (ops ++ [op]) w'.
