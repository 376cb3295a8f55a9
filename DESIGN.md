# Formal model of zyedidia/gpeg in Rocq

## Layout

- `rocq/theories/Model_*.v`  model of the Go code, function by function, each definition citing file and lines in /repo.
- `rocq/theories/Spec_*.v`   small independent specifications (lists of bytes, PEG relation, interval multiset, ...).
- `rocq/theories/Proof_*.v`  lemmas.
- `rocq/theories/Props_*.v`  the property theorems only: statement, `exact lemma`, `Print Assumptions`, and Examples
  showing that the hypotheses are met by concrete non-trivial cases.

## Conventions of the model

- Go `byte`/`uint8` is `Coq.Init.Byte.byte` (exactly 256 values). `uint64` words are `N` with explicit wrap-around.
- Go `int` positions, lengths, indices are `nat` where they cannot be negative (C57 shows this for the machine), `Z` in the interval trees and edits.
  64-bit overflow of `int` is not modelled.
- Go panics are an explicit outcome. Error returns are values. Out-of-fuel is a separate outcome, excluded in statements.
- Go maps with random iteration order are association lists without duplicate keys; a theorem quantifying over the list
  quantifies over the order.
- The 4096-byte chunk size is a parameter B > 0 (the code's value is an instance).
- Pointers/aliasing: the model is functional. Slice aliasing (writing into spare capacity) is modelled for the slices of
  captures, in Model_Heap, a second model of the machine (property C42), and for the slices of ropes, in Model_RopeHeap,
  a second model of linerope (property C49).
- Checkers (user code) are an oracle with its own state. The memo table seen by the VM is an abstract get/put pair,
  instantiated with the no-op table and with the interval-tree table.

## What is proved in part

properties.jsonl keeps the full statements. A theorem that needs more than the property says ends in `_partial`, and a
property is marked partial in MANIFEST.json if it is proved in part or if the code violates it.

- C08 C09 C10 C15 C17 C18 C20 C29, on the machine, suppose a supported pattern (names are used in the grammar that
  defines them and are not redefined below it, a grammar defines a name once, every Any is Any(1)) and checkers that do
  not skip past the end of the input. `wide` patterns allow Any(n) in places other than the start of a choice, on texts
  of one chunk. For other uses of Any(n) the code is wrong (C08_any_refuted, C08_any_long_refuted), and for redefined names too (C08_shadow_refuted,
  C08_search_refuted).
- C11 and C13 are violated by the code (C11_any_refuted, C13_shadow_refuted) and proved without Any(n), n > 1, and without
  redefined names. C16 holds if a name counts as defined only in the innermost grammar or search around it. In C19 the
  clause about Any(n) is violated.
- C45 is violated by the shipped grammars. C45_recognises gives the language they do recognise.
- The names of theorems in seeded/LOG.jsonl were changed along with the theorems when the suffix was added. The theorems
  C14_no_panic_partial, C14_wide_partial and C14_table_partial named there have since been replaced by C14_no_panic,
  and C44_small by C44_default.

## Plan per property

- C01 C02 charset: words as N, bit operations; specification by membership predicate; proof by bit lemmas.
- C03 C04 input: record (base, coff, chunk, furthest); refinement to (data, index); invariant over operation lists.
  C04 is false at chunk borders: exact characterisation plus a refutation.
- C05 reader: reader = list of chunks (every Read split), buffer; invariant "buffer ++ rest = stream".
- C06 C07 encoding: encode/decode functions on byte lists; simulation between instruction list machine and byte machine.
- C14: an abstract machine that knows only the kinds of the stack entries and takes every branch; each fragment of
  emitted code is safe for any number of steps if its continuation is; Optimize keeps closed invariants.
- C08 C09 C10 C14 C35 C36: pattern AST, `Compile`, `Optimize`, `Encode`, VM step function; spec is an inductive
  big-step PEG relation with captures and errors. Compiler correctness in continuation-passing style by induction on an
  indexed form of the PEG derivation and on the code generation relation.
- C11 simulation between programs before/after `Optimize`. C12 C13 semantic equivalence of `Get`, `Inline`.
- C15 well-formedness (nullable analysis, no left recursion) implies that a PEG derivation exists for every input.
- C16 fuel sufficiency for Compile and characterisation of its errors.
- C17 C18 C19 consequences of the PEG relation and of C08.
- C20 C08 quantifies over association lists; corollary for permutations.
- C42 heap of arrays; invariant: arrays that another slice can see are frozen, the slices of the stack that can grow in
  place have distinct arrays; lock-step simulation with the machine on lists.
- C21 VM over an abstract valid table. C22 locality of PEG derivations (examined range), edit lemma; false in general
  (two reparses), one-generation theorem proved; any number of reparses when memoized patterns are not nested, since
  then no entry is made from another and every entry records all that was looked at.
- C23..C27 the lazylog tree (AVL + lazy shift log), abstract content as a multiset of (id, low, high, value);
  `lazy.Array` likewise. C25 and C27 false for the tree: refuted, proved for the array.
- C43 lazy.Tree likewise; the content of a node is seen through the pending shifts of all the nodes above it.
- C44 the texts of the shipped grammars are strings in Model_Grammars.v. A fast check of a text (names that may match nothing, an order of the names without left recursion) is proved right and computed for each of them. Spec_Thresholds goes through the finitely many programs that the inline thresholds lead to, and checks that each fits into the bytecode. Spec_GrammarMemo adds a check of the memoized patterns (ids used once, what they look at is recorded), so that C21 and C22 apply to the shipped grammars.
- C45 JSON as an inductive grammar with three parameters (Spec_Json); the rules of json.peg as functions on texts, which the
  PEG rules follow one by one; these functions take exactly the texts of the grammar.
- C46 an entry does not record what the entries it was made from looked at. Proof_Tree: this does no harm when every
  memoized pattern stands below a star and looks at most one byte past its end (`near`). Proof_Extent is a small logic for
  how far a pattern looks; Proof_JsonNear uses it to show that array elements of json_memo.peg are near in `clean` texts.
- C47 the machine of Model_VM with a table that, before each operation, does the operations of the other goroutines that
  come first (Model_Share). Each operation keeps every valid table valid, so the order does not matter. Two runs whose
  tables answer alike up to some point are alike up to there (Proof_Share3), which shows that the order is one in which
  each goroutine does its own operations. A later edit can then go wrong: refuted.
- C48 depth and balance of the lazylog tree and of lazy.Tree as plain trees; the stored heights are right, so that rebalancing works;
  refuted after edits.
- C49 ropes over a heap of arrays: a slice with spare capacity is the only one that knows its array, all other arrays are
  never written again; refinement of Model_Rope, then an invariant over programs with many ropes and slices.
- C50 lazyInterval.Pos as a program of single reads and writes, and any interleaving of such programs (Model_Race). A
  goroutine that owns a node computes its position from fields that nobody else writes; what it reads of its children may
  be anything. Alone, the program does what Model_Interval does.
- C51 The relation 'knows at least as much' between tables without edits is kept by every instruction (Proof_Share has the
  rule for such relations). The exponential run is by induction on the number of bytes, in continuation-passing style.
  C51_left and C51_twice use the abstract machine of C14, in which Commit and FailTwice must find a backtrack entry: so only
  MemoClose and failures take the entry of a memoized pattern off the stack (Proof_Once).
- C52 An invariant of the loop over the 256 bytes; the text is read back by a reader of Go characters (Spec_String).
- C53 A reader of the printed form (in the proof) returns a pattern with the same meaning, up to the identifiers of captures; the lines of a grammar are read one by one, and scopes with definitions of the same meaning are equivalent.
- C54 shape of ropes: an invariant for the leaves; the halving of the number of nodes in buildTree; typed text keeps the shape of a comb.
- C55 listings: the text of each instruction starts with a word no other starts with, and every field ends before the next; then by induction on the program.
- C56 texts of captures: every field ends before the next; by induction on the capture.
- C57 positions: an invariant of the machine (entries are ordered by position, captures apart), and of the code: the
  instructions in front of CaptureLate and CaptureFull consume at least as many bytes as they reach back.
- C58 stack: the configurations of C14's abstract machine, which must also be empty at the end, carried over to the
  encoded program (Proof_Once, Proof_Stack).
- C59 inputs: a simulation between the cache with all its bytes over any reader, and Model_Input over the data. A reader
  is anything that delivers the data in all states it can reach; bytes, ropes (C31) and streams (C05) are such readers.
- C60 editor: the session on the rope is a history of C22 on its bytes (C30).
- C61 labels: the numbers of labels are only compared, by Optimize and Encode; a renumbering that keeps them apart commutes with every step of compile, optimize and encode.
- C62 single edits: lists; the interval tree keeps its order under shifts by one byte to the left, since what ends before
  the shift ends at least one byte before it (Proof_Interval3 [fits], Proof_Stage).
- C63 the Java grammar of the benchmarks: its loop has an alternative that takes any byte, so it ends at the end only; the
  captures by inversion of the semantics of each rule; the machine by C15.
- C28 C29 capture trees; flattening specification.
- C30..C34 linerope: tree with leaves; value function; C34 is false: refuted.
- C37 interval captures: filter specification. Table poisoning refuted.
- C38 rxconv: backtracking regex semantics as an ordered list of ends / continuation semantics; `pi` correctness.
- C39 re: tree-to-pattern translation; escapes.
- C40 serialization: the rules of encoding/json and encoding/gob for the types of `code`, on trees of values; exact
  condition for JSON, condition for gob, refutations (checkers, messages that are not UTF-8).
- C41 CapGrammar ids.

## Trusted base

- Coq 8.16.1: its kernel, including `vm_compute`, which Examples and `_refuted` witnesses use.
- `Print Assumptions` after every theorem in the Props files answers "Closed under the global context": no theorem uses
  an axiom. (`coqchk` also lists `Coq.ssr.ssrunder.Under_rel` parameters; they belong to the standard library's ssreflect
  plugin, which `lia`'s library loads, and no theorem depends on them.)
- The model is written by hand from the Go source. Nothing checks mechanically that the two agree; every definition
  names the file and lines it was read from.
- The Go compiler, runtime and standard library behave as documented.

### What is modelled

| code | model |
|---|---|
| charset/ | Model_Charset: all of Set except String, which is in Model_String |
| input/input.go | Model_Input: the cursor over a chunk cache, over a reader that returns full chunks |
| input/ FromReader | Model_Reader: every split of the stream into reads, with errors |
| input/ over readers | Model_Source: the operations of Input over any reader, with the old bytes in the cache, and goroutines with inputs over one reader |
| bench/edit.go EditToEdits, ToSingleEdits | Model_Bench; the random generation of edits is not modelled |
| bench/java.go | Model_Java: the grammar, and the checker of WordMatch |
| isa.NewLabel and pattern.Memo in goroutines | Model_Labels: each call as three accesses of uniqId, interleaved; the compiler with the labels a goroutine gets (proved to be the compiler of Model_Pattern when they come in order). Memo's accesses of memoId likewise; Compile's own increments of memoId are not raced |
| isa/ | Model_Isa: all instructions; labels are numbers (the global counter is a state); Model_Listing: String of instructions and programs |
| pattern/ | Model_Pattern: constructors, simplification (`get`), inlining, Compile, Optimize, search, CapGrammar; Model_Pretty: Prettify (strconv.Quote and the order of maps are parameters) |
| vm/code.go, vm/op.go | Model_Code: Encode to bytes, decoding of operands |
| vm/code.go ToBytes ... FromJson | Model_Serial: on trees of values |
| vm/vm.go, vm/stack.go | Model_VM: one step per instruction on instruction lists and on bytes, Exec, ExecInterval; Model_Heap: the same with slices |
| memo/capture.go | Model_Capture: nodes, dummies, child iteration, extents; Model_CapString: String |
| memo/tree.go, memo/entry.go | Model_Table |
| memo/interval/lazylog | Model_Interval: the tree with its log of shifts, all operations; Model_Detach: the same with the nodes that were taken out of the tree, whose handles can still be asked; Model_Race: Pos as single reads and writes of several goroutines |
| memo/interval/lazy array | Model_Array |
| memo/interval/lazy tree | Model_Lazy: all operations; nodes taken out of the tree are gone |
| input/linerope/ | Model_Rope: all of it; the parallel loading in NewWithOpts is a map, a node that is edited in place is a new value; Model_RopeHeap: the same with slices of arrays in a heap (without Rebuild, Rebalance, ReadAt, WriteTo), and programs that use many ropes |
| rxconv/ | Model_Rxconv: FromRegexp on parsed expressions; the parser (package regexp/syntax) is not modelled, the expressions are arbitrary trees |
| re/ | Model_Re: the grammar, Compile and CompileCap. The tree of captures is read as a tree (property C28 says that the iterators show it); a pattern that is nil or contains nil is `ReNil`, without saying what happens when it is used; errors carry no text |
| grammars/ | Model_Grammars: the texts of the nine grammars, as strings, generated by tools/gen_grammars.py |
| isa checkers (MapChecker, ...) | Model_Checker; other checkers are arbitrary functions with state |

### What is not modelled

- Overflow of 64-bit integers; memory exhaustion.
- Goroutines: Model_Share has any number of them that call Exec with one TreeTable; its mutex puts their Get and Put calls
  in one order, which is arbitrary. Not modelled: what they do outside of the mutex to memory they share (the captures of
  an entry, see C42; Model_Race has the positions, step by step, but not together with Get and Put) and ApplyEdit during a parse. The mutex of the input reader makes each ReadAt one step (Model_Source).
- Sharing of slices, except of captures and of ropes (C49 says that Model_Rope, with byte strings, is right for programs
  that insert only their own slices). Model_VM has lists of captures. Model_Heap has slices of arrays in a heap, with
  an arbitrary growth policy for append; C42_lists says that without a memo table the two machines agree, and
  C21_alias_refuted that with one they do not: the captures of a memo entry and those of the stack entry it came from
  are slices of one array, and after two hits the second append can overwrite what the first one wrote. C21 and C22 are
  about Model_VM; C42 has the condition under which C21 carries over. Edits of a table are not in Model_Heap.
- In the code a capture that belongs to an inner memo entry gets its position from that entry; in the model it moves with
  the entry through which it is read. C26_together_partial says that the two keep their distance for as long as no edit
  touches the outer entry, on calm histories.
- A checker that returns a negative number other than -1 (the code then moves backwards).
- Ropes: a rope that was given to Join or SplitAt is not used any more (its nodes are shared with the result). Slices
  with spare capacity are cut to their length, so an index beyond the length panics in the model and may not in the code.
  The ratio of Rebalance is a fraction, its comparison exact.
- Serialization: the text of JSON, the byte stream of gob, and gzip. The rules of the two packages for the types that
  occur are written down from their documentation and source, not proved.
- The `viz` and example programs.
