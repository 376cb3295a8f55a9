(** Parses and edits in any order for a pattern whose memoized patterns are all repeated directly. *)
From Verif Require Import Base Model_Charset Model_Isa Model_Capture Model_Code Model_VM Model_Pattern Model_Table Spec_Peg Spec_Run Spec_Memo Spec_Json.
Local Open Scope nat_scope.

(** as [history] of Spec_Memo, where every text that is parsed satisfies [C] *)
Inductive history_of {CS} (C : list byte -> Prop) (bufsz : nat) (check : nat -> CS -> list byte -> list byte -> nat -> Z -> Z -> CS * option nat)
    (threshold : Z) (p : pattern) (code : code) : bool -> list byte -> ttable -> Prop :=
| ho_new : forall s, history_of C bufsz check threshold p code false s tt_new
| ho_parse : forall b s t f cs r w' o st, history_of C bufsz check threshold p code b s t -> check_ok check s -> C s ->
    peg s check [] p 0 ([], cs) r w' -> vm_exec bufsz (tree_table threshold) check None f code s t cs = Some (ROk o st) ->
    history_of C bufsz check threshold p code b s (m_tbl st)
| ho_edit : forall b s t e, history_of C bufsz check threshold p code b s t -> edit_ok s e -> b = false \/ gentle e ->
    history_of C bufsz check threshold p code true (edit_text s e) (tt_edit t (ed_start e) (ed_end e) (List.length (ed_text e)))
| ho_ask : forall b s t h, history_of C bufsz check threshold p code b s t -> history_of C bufsz check threshold p code b s (tt_ask t h).

(** every memoized pattern is repeated: it stands directly below a star, as in ({{ p }})* *)
Fixpoint starred (p : pattern) : bool :=
  match p with
  | PStar (PMemo q _) => starred q
  | PMemo _ _ | PSearch _ => false
  | PSeq l r | PAlt l r => starred l && starred r
  | PStar q | PPlus q | POpt q | PNot q | PAnd q | PCap q _ | PCheck q _ _ _ | PError _ (Some q) | PNonTerm _ (Some q) => starred q
  | PGrammar defs _ =>
      (fix go (l : list (string * pattern)) : bool := match l with [] => true | (_, q) :: l => starred q && go l end) defs
  | PEmpty | PLit _ | PClass _ | PEmptyOp _ | PDot _ | PError _ None | PNonTerm _ None => true
  end.

(** ** Numbers in a text *)
Definition starts (f : byte -> bool) (t : list byte) : bool := match t with b :: _ => f b | [] => false end.
Fixpoint drop_while (f : byte -> bool) (t : list byte) : list byte := match t with b :: u => if f b then drop_while f u else t | [] => [] end.
Definition drop_one (f : byte -> bool) (t : list byte) : list byte := match t with b :: u => if f b then u else t | [] => [] end.
(** after the letter e of an exponent come a sign or not, and a digit *)
Definition exp_done (t : list byte) : bool := negb (starts (one_of [x65; x45]) t) || starts is_digit (drop_one (one_of [x2b; x2d]) (drop_one (fun _ => true) t)).
(** after the point of a fraction comes a digit *)
Definition fract_done (t : list byte) : bool :=
  if starts (byte_eqb x2e) t then starts is_digit (drop_one (fun _ => true) t) && exp_done (drop_while is_digit (drop_one (fun _ => true) t)) else exp_done t.
(** if the text starts with a number, perhaps after white space, then its fraction and its exponent are not broken off *)
Definition number_done (t : list byte) : bool :=
  match drop_one (byte_eqb x2d) (drop_while peg_blank t) with
  | d :: u => if byte_eqb d x30 then fract_done u else if between 49 57 d then fract_done (drop_while is_digit u) else true
  | [] => true
  end.
(** so it is for all numbers after a comma, a colon or a bracket *)
Fixpoint clean (s : list byte) : bool :=
  match s with c :: t => (negb (one_of [x2c; x3a; x5b] c) || number_done t) && clean t | [] => true end.

(** ** A session of three parses and two edits *)
(** a checker that never matches *)
Definition no_check (k : nat) (cs : unit) (_ _ : list byte) (i : nat) (id fl : Z) : unit * option nat := (cs, None).
(** what Exec does to a text, with table threshold 0 *)
Definition parse (code : code) (s : list byte) (t : ttable) := vm_exec 64 (tree_table 0) no_check None 4000 code s t tt.
Definition shifted (t : ttable) (e : edit) : ttable := tt_edit t (ed_start e) (ed_end e) (List.length (ed_text e)).
(** compile the pattern and parse [s1]; edit, parse, edit and parse again; is the last text matched? *)
Definition session (p : pattern) (m : Z) (s1 : list byte) (e1 e2 : edit) : option bool :=
  match compile 100 100 p (CState 0 m) with
  | COk c _ =>
      match encode c with
      | Some code =>
          match parse code s1 tt_new with
          | Some (ROk _ st1) =>
              match parse code (edit_text s1 e1) (shifted (m_tbl st1) e1) with
              | Some (ROk _ st2) =>
                  match parse code (edit_text (edit_text s1 e1) e2) (shifted (m_tbl st2) e2) with
                  | Some (ROk o _) => Some (o_ok o)
                  | _ => None
                  end
              | _ => None
              end
          | _ => None
          end
      | None => None
      end
  | _ => None
  end.
Definition session_is (p : pattern) (m : Z) (s1 : list byte) (e1 e2 : edit) (b : bool) : bool :=
  match session p m s1 e1 e2 with Some b' => Bool.eqb b' b | None => false end.
