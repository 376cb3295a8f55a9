(** What a goroutine sees that reads the data alone. *)
From Verif Require Import Base Model_Input Model_Source Spec_Input.
Local Open Scope nat_scope.

(** the observations of a goroutine with an input over the bytes [data] *)
Fixpoint solo (bufsz : nat) (data : list byte) (i : option input) (acts : list act) : list iobs :=
  match acts with
  | [] => []
  | New :: acts => solo bufsz data (Some (i_new bufsz data)) acts
  | Do op :: acts =>
      match i with
      | None => solo bufsz data None acts
      | Some i => let (o, i) := i_step bufsz i op in o :: solo bufsz data (Some i) acts
      end
  end.
(** the same with a plain cursor *)
Fixpoint solo_cursor (data : list byte) (c : option cursor) (acts : list act) : list iobs :=
  match acts with
  | [] => []
  | New :: acts => solo_cursor data (Some (Cursor data 0 0)) acts
  | Do op :: acts =>
      match c with
      | None => solo_cursor data None acts
      | Some c => let (o, c) := cursor_step c op in o :: solo_cursor data (Some c) acts
      end
  end.
(** what belongs to goroutine [k] *)
Definition of {A} (k : nat) (l : list (nat * A)) : list A := map snd (filter (fun x => fst x =? k) l).
