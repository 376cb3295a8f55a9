(** Model of re/grammar.go and re/re.go. *)
From Coq Require Import ZArith String.
From Verif Require Import Base Model_Charset Model_Isa Model_Capture Model_Input Model_Code Model_VM Model_Pattern Spec_Peg Spec_Run.
Local Open Scope nat_scope.

(* ---------- grammar.go ---------- *)
(** grammar.go:58-84: the ids of the captures *)
Definition idPattern : Z := 0.
Definition idGrammar : Z := 1.
Definition idDefinition : Z := 2.
Definition idExpression : Z := 3.
Definition idSequence : Z := 4.
Definition idPrefix : Z := 5.
Definition idSuffix : Z := 6.
Definition idPrimary : Z := 7.
Definition idLiteral : Z := 8.
Definition idRange : Z := 9.
Definition idClass : Z := 10.
Definition idIdentifier : Z := 11.
Definition idIdentStart : Z := 12.
Definition idIdentCont : Z := 13.
Definition idChar : Z := 14.
Definition idAND : Z := 15.
Definition idNOT : Z := 16.
Definition idQUESTION : Z := 17.
Definition idSTAR : Z := 18.
Definition idPLUS : Z := 19.
Definition idDOT : Z := 20.
Definition idCARAT : Z := 21.
Definition idOPEN : Z := 22.
Definition idBRACEO : Z := 23.
Definition idBRACEPO : Z := 24.

Notation nt x := (PNonTerm x%string None).
Notation lit x := (PLit (list_byte_of_string x%string)).
(** grammar.go:193-256: a token and the spacing after it, with or without a capture *)
Definition g_token (str : string) : pattern := p_concat [PLit (list_byte_of_string str); nt "Spacing"].
Definition g_quoted (q : byte) : pattern := p_concat [PLit [q]; PStar (p_concat [PNot (PLit [q]); nt "Char"]); PLit [q]; nt "Spacing"].
Definition g_digit (hi : byte) : pattern := PClass (cs_range x30 hi).
Definition g_alpha : cset := cs_add (cs_add (cs_range x61 x7a) (cs_range x41 x5a)) (cs_new [x5f]).
Definition g_escapes : list byte := [x6e; x72; x74; x27; x22; x5b; x5d; x5c; x2d].

(** grammar.go:86-290 grammar *)
Definition re_defs : list (string * pattern) := [
  ("Pattern", PCap (p_concat [nt "Spacing"; p_or [nt "Grammar"; nt "Expression"]; nt "EndOfFile"]) idPattern);
  ("Grammar", PCap (PPlus (nt "Definition")) idGrammar);
  ("Definition", PCap (p_concat [nt "Identifier"; nt "LEFTARROW"; nt "Expression"]) idDefinition);
  ("Expression", PCap (p_concat [nt "Sequence"; PStar (p_concat [nt "SLASH"; nt "Sequence"])]) idExpression);
  ("Sequence", PCap (PStar (nt "Prefix")) idSequence);
  ("Prefix", PCap (p_concat [POpt (p_or [nt "AND"; nt "NOT"]); nt "Suffix"]) idPrefix);
  ("Suffix", PCap (p_concat [nt "Primary"; POpt (p_or [nt "QUESTION"; nt "STAR"; nt "PLUS"])]) idSuffix);
  ("Primary", PCap (p_or [
     p_concat [nt "Identifier"; PNot (nt "LEFTARROW")];
     p_concat [nt "OPEN"; nt "Expression"; nt "CLOSE"];
     p_concat [nt "BRACEPO"; nt "Expression"; nt "BRACEPC"];
     p_concat [nt "BRACEO"; nt "Expression"; nt "BRACEC"];
     nt "Literal"; nt "Class"; nt "DOT"]) idPrimary);
  ("Identifier", PCap (p_concat [nt "IdentStart"; PStar (nt "IdentCont"); nt "Spacing"]) idIdentifier);
  ("IdentStart", PCap (PClass g_alpha) idIdentStart);
  ("IdentCont", PCap (p_or [nt "IdentStart"; g_digit x39]) idIdentCont);
  ("Literal", PCap (p_or [g_quoted x27; g_quoted x22]) idLiteral);
  ("Class", PCap (p_concat [PLit [x5b]; POpt (nt "CARAT"); PStar (p_concat [PNot (PLit [x5d]); nt "Range"]); PLit [x5d]; nt "Spacing"]) idClass);
  ("Range", PCap (p_or [p_concat [nt "Char"; PLit [x2d]; nt "Char"]; nt "Char"]) idRange);
  ("Char", PCap (p_or [
     p_concat [PLit [x5c]; PClass (cs_new g_escapes)];
     p_concat [PLit [x5c]; g_digit x32; g_digit x37; g_digit x37];
     p_concat [PLit [x5c]; g_digit x37; POpt (g_digit x37)];
     p_concat [PNot (PLit [x5c]); PDot x01]]) idChar);
  ("AND", PCap (g_token "&") idAND);
  ("NOT", PCap (g_token "!") idNOT);
  ("QUESTION", PCap (g_token "?") idQUESTION);
  ("STAR", PCap (g_token "*") idSTAR);
  ("PLUS", PCap (g_token "+") idPLUS);
  ("DOT", PCap (g_token ".") idDOT);
  ("CARAT", PCap (g_token "^") idCARAT);
  ("OPEN", PCap (g_token "(") idOPEN);
  ("CLOSE", g_token ")");
  ("BRACEO", PCap (g_token "{") idBRACEO);
  ("BRACEC", g_token "}");
  ("BRACEPO", PCap (g_token "{{") idBRACEPO);
  ("BRACEPC", g_token "}}");
  ("SLASH", g_token "/");
  ("LEFTARROW", g_token "<-");
  ("Spacing", PStar (p_or [nt "Space"; nt "Comment"]));
  ("Comment", p_concat [lit "#"; PStar (p_concat [PNot (nt "EndOfLine"); PDot x01]); nt "EndOfLine"]);
  ("Space", p_or [PClass (cs_new [x20; x09]); nt "EndOfLine"]);
  ("EndOfLine", p_or [PLit [x0d; x0a]; PLit [x0a]; PLit [x0d]]);
  ("EndOfFile", PNot (PDot x01))]%string.
Definition re_grammar : pattern := PGrammar re_defs "Pattern".

(* ---------- re.go ---------- *)
(** re.go:130-140 special *)
Definition special (b : byte) : option byte :=
  match b with
  | x6e => Some x0a | x72 => Some x0d | x74 => Some x09
  | x27 => Some x27 | x22 => Some x22 | x5b => Some x5b | x5d => Some x5d | x5c => Some x5c | x2d => Some x2d
  | _ => None
  end.
(** strconv.ParseInt(s, 8, 8): a signed number of 8 bits.  Digits that are no octal digits give 0, numbers
    that do not fit give the largest one, 127; the error is ignored *)
Fixpoint octal (acc : N) (ds : list byte) : option N :=
  match ds with
  | [] => Some acc
  | d :: ds => if ((48 <=? bN d) && (bN d <? 56))%N then octal (8 * acc + (bN d - 48))%N ds else None
  end.
Definition parse_int8 (ds : list byte) : byte :=
  match ds with
  | [] => x00
  | _ => match octal 0 ds with Some v => N2b (N.min v 127) | None => x00 end
  end.
(** re.go:142-156 parseChar; [None]: an index out of range (panic) *)
Definition parse_char (char : list byte) : option byte :=
  match char with
  | x5c :: c :: rest => match special c with Some v => Some v | None => Some (parse_int8 (c :: rest)) end
  | x5c :: [] => None
  | c :: _ => Some c
  | [] => None
  end.
(** s[c.Start():c.End()] *)
Definition text_of (s : list byte) (c : ctree) : list byte := match c with CNode _ st len _ => firstn len (skipn st s) end.
Definition kids (c : ctree) : list ctree := match c with CNode _ _ _ cs => cs end.
Definition ct_id (c : ctree) : Z := match c with CNode id _ _ _ => id end.
(** re.go:158-165 parseId *)
Definition parse_id (s : list byte) (root : ctree) : string := string_of_list_byte (flat_map (text_of s) (kids root)).
(** re.go:173-183 compileSet *)
Definition compile_set (s : list byte) (root : ctree) : option cset :=
  match kids root with
  | [c] => match parse_char (text_of s c) with Some b => Some (cs_new [b]) | None => None end
  | [c1; c2] => match parse_char (text_of s c1), parse_char (text_of s c2) with Some a, Some b => Some (cs_range a b) | _, _ => None end
  | _ => Some (cs_new [])
  end.
(** nonterms[k] = v *)
Fixpoint put_def (k : string) (v : pattern) (defs : list (string * pattern)) : list (string * pattern) :=
  match defs with
  | [] => [(k, v)]
  | (k', v') :: defs => if String.eqb k' k then (k, v) :: defs else (k', v') :: put_def k v defs
  end.
(** the loops of re.go:95-99 (Literal) and 112-118 (Class) *)
Fixpoint conv_chars (s : list byte) (cs : list ctree) : option (list byte) :=
  match cs with
  | [] => Some []
  | c :: cs => match parse_char (text_of s c), conv_chars s cs with Some b, Some l => Some (b :: l) | _, _ => None end
  end.
Fixpoint conv_sets (s : list byte) (cs : list ctree) (set : cset) : option cset :=
  match cs with
  | [] => Some set
  | c :: cs => match compile_set s c with Some x => conv_sets s cs (cs_add set x) | None => None end
  end.
Definition conv_class (s : list byte) (cs : list ctree) : option pattern :=
  match cs with
  | [] => None
  | c :: cs' =>
      if (ct_id c =? idCARAT)%Z then match conv_sets s cs' (cs_new []) with Some x => Some (PClass (cs_compl x)) | None => None end
      else match conv_sets s cs (cs_new []) with Some x => Some (PClass x) | None => None end
  end.

(** re.go:25-128 compile.  The trees of captures are those that ChildIterator and Child show (property C28).
    [m] is the counter memoId of package pattern.  [None]: the result is nil or contains nil, or the
    code panics. *)
Section Conv.
Variable s : list byte.
Variable capg : bool.
Fixpoint conv (root : ctree) (m : Z) {struct root} : option (pattern * Z) :=
  match root with
  | CNode id _ _ cs =>
      let all := (fix all (cs : list ctree) (m : Z) : option (list pattern * Z) :=
        match cs with
        | [] => Some ([], m)
        | c :: cs => match conv c m with
                     | Some (p, m) => match all cs m with Some (ps, m) => Some (p :: ps, m) | None => None end
                     | None => None
                     end
        end) in
      let on (f : pattern -> pattern) (c : ctree) (m : Z) := match conv c m with Some (p, m) => Some (f p, m) | None => None end in
      if (id =? idPattern)%Z then match cs with c :: _ => conv c m | [] => None end
      else if (id =? idGrammar)%Z then
        match (fix defs (cs : list ctree) (acc : list (string * pattern)) (m : Z) : option (list (string * pattern) * Z) :=
          match cs with
          | [] => Some (acc, m)
          | CNode _ _ _ (i :: e :: _) :: cs => match conv e m with Some (p, m) => defs cs (put_def (parse_id s i) p acc) m | None => None end
          | _ :: _ => None
          end) cs [] m with
        | Some (d, m) => let first := match cs with CNode _ _ _ (i :: _) :: _ => parse_id s i | _ => ""%string end in
                         Some (if capg then fst (p_cap_grammar first d) else PGrammar d first, m)
        | None => None
        end
      else if (id =? idExpression)%Z then match all cs m with Some (ps, m) => Some (p_or ps, m) | None => None end
      else if (id =? idSequence)%Z then match all cs m with Some (ps, m) => Some (p_concat ps, m) | None => None end
      else if (id =? idPrefix)%Z then
        match cs with
        | [] => None
        | c0 :: r =>
            if (ct_id c0 =? idAND)%Z then match r with c1 :: _ => on PAnd c1 m | [] => None end
            else if (ct_id c0 =? idNOT)%Z then match r with c1 :: _ => on PNot c1 m | [] => None end
            else conv c0 m
        end
      else if (id =? idSuffix)%Z then
        match cs with
        | [c0; c1] =>
            if (ct_id c1 =? idQUESTION)%Z then on POpt c0 m
            else if (ct_id c1 =? idSTAR)%Z then on PStar c0 m
            else if (ct_id c1 =? idPLUS)%Z then on PPlus c0 m
            else None
        | c0 :: _ => conv c0 m
        | [] => None
        end
      else if (id =? idPrimary)%Z then
        match cs with
        | [] => None
        | c0 :: r =>
            let i := ct_id c0 in
            if (i =? idIdentifier)%Z || (i =? idLiteral)%Z || (i =? idClass)%Z then conv c0 m
            else if (i =? idOPEN)%Z then match r with c1 :: _ => conv c1 m | [] => None end
            else if (i =? idBRACEPO)%Z then match r with c1 :: _ => match conv c1 m with Some (p, m) => Some (PMemo p m, (m + 1)%Z) | None => None end | [] => None end
            else if (i =? idDOT)%Z then Some (PDot x01, m)
            else None
        end
      else if (id =? idLiteral)%Z then match conv_chars s cs with Some l => Some (PLit l, m) | None => None end
      else if (id =? idClass)%Z then match conv_class s cs with Some p => Some (p, m) | None => None end
      else if (id =? idIdentifier)%Z then Some (PNonTerm (parse_id s root) None, m)
      else None
  end.
End Conv.

(** re.go:185-195 Compile and 205-215 CompileCap, after the execution of the parser *)
Inductive re_result := ReError | ReNil | RePattern (p : pattern) (memo : Z).
Definition re_compile (s : list byte) (capg : bool) (o : outcome) (m : Z) : re_result :=
  match o_errs o with
  | _ :: _ => ReError
  | [] =>
      if o_ok o then
        match o_capt o with
        | Some c => match flat1 c with
                    | t :: _ => match conv s capg t m with Some (p, m) => RePattern p m | None => ReNil end
                    | [] => ReNil
                    end
        | None => ReNil
        end
      else ReError
  end.
