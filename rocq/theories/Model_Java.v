(** Model of bench/java.go: a grammar that picks out pieces of Java. *)
From Coq Require Import ZArith String.
From Verif Require Import Base Model_Charset Model_Pattern.
Local Open Scope string_scope.

Definition lit (s : string) : pattern := PLit (list_byte_of_string s).
Definition nt (x : string) : pattern := PNonTerm x None.

(** java.go:9-17 *)
Definition j_letters : cset := cs_add (cs_range x41 x5a) (cs_range x61 x7a).
Definition j_alpha : pattern := PClass j_letters.
Definition j_alnum : pattern := PClass (cs_add j_letters (cs_range x30 x39)).
Definition j_word : pattern := p_concat [p_or [j_alpha; lit "_"]; PStar (p_or [j_alnum; lit "_"])].

(** java.go:19-43 BlockPatt; [None] is a nil escape *)
Definition block_patt (start en : list byte) (escape : option pattern) : pattern :=
  match escape with
  | Some esc => p_concat [PLit start; PStar (p_or [esc; p_concat [PNot (PLit en); PDot x01]]); PLit en]
  | None => p_concat [PLit start; PStar (p_concat [PNot (PLit en); PDot x01]); PLit en]
  end.

(** java.go:45-53 WordMatch; [ck] stands for the MapChecker of the words, see [word_check] *)
Definition word_match (ck : nat) : pattern := PCheck j_word ck 0 0.
(** isa/check.go MapChecker for the words of java.go:80 *)
Definition j_words : list (list byte) := map list_byte_of_string ["public"; "protected"; "private"].
Definition word_check (_ : nat) (cs : unit) (b _ : list byte) (_ : nat) (_ _ : Z) : unit * option nat :=
  (cs, if existsb (fun w => if list_eq_dec Byte.byte_eq_dec w b then true else false) j_words then Some 0%nat else None).

(** java.go:100-106 *)
Definition cap_line_comment : Z := 0.
Definition cap_func_name : Z := 1.
Definition cap_func_qual : Z := 2.
Definition cap_string : Z := 3.
Definition cap_newline : Z := 4.

(** java.go:57-98 grammar; the memo id is the first one of the package *)
Definition j_token : pattern := p_or [nt "Comment"; nt "FuncQual"; nt "FuncName"; nt "String"; nt "Newline"].
Definition j_item : pattern := p_or [nt "Token"; p_concat [PDot x01; PStar (p_concat [PNot (nt "Token"); PDot x01])]].
Definition j_defs : list (string * pattern) :=
  [("S", PStar (PMemo j_item 0));
   ("Token", j_token);
   ("Comment", p_or [nt "LineComment"; nt "LongComment"]);
   ("LineComment", PCap (block_patt [x2f; x2f] [x0a] None) cap_line_comment);
   ("LongComment", block_patt [x2f; x2a] [x2a; x2f] None);
   ("FuncQual", PCap (word_match 0) cap_func_qual);
   ("FuncName", p_concat [PCap (nt "Identifier") cap_func_name; lit "("]);
   ("Identifier", j_word);
   ("String", PCap (block_patt [x22] [x22] (Some (nt "Escape"))) cap_string);
   ("Escape", p_concat [PLit [x5c]; PClass (cs_new [x27; x22; x74; x6e; x62; x66; x72; x5c])]);
   ("Newline", PCap (PLit [x0a]) cap_newline)].
Definition j_grammar : pattern := PGrammar j_defs "S".
