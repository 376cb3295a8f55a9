{"id": "C01", "title": "Character sets are exact sets of bytes", "statement": "Has(b) on the result of New, Range, Add, Sub and Complement is true exactly for the bytes the documentation says: New(cs) accepts b iff b is listed in cs; Range(lo,hi) iff lo<=b<=hi; Add is union, Sub is difference, Complement is the complement within 0..255.", "quantifier": "every byte, every list of bytes, every pair of bounds and every character set", "why_tests_cant": "2^256 sets; the word/bit boundary at 64, 128 and 192 is easy to get wrong and tests sample only a few bytes", "anchors": ["charset/charset.go:New", "charset/charset.go:Range", "charset/charset.go:Set.Add", "charset/charset.go:Set.Sub", "charset/charset.go:Set.Complement", "charset/charset.go:Set.Has"]}
{"id": "C02", "title": "Character set size and the small-set conversion are faithful", "statement": "Size() of a set is the number of bytes it accepts; IsSmall() is true exactly when no byte >=128 is accepted; SmallSet() then accepts exactly the same bytes and has the same Size().", "quantifier": "every character set built through the API and every byte", "why_tests_cant": "the number of sets is astronomically large", "anchors": ["charset/charset.go:Set.Size", "charset/charset.go:Set.IsSmall", "charset/charset.go:Set.SmallSet", "charset/charset.go:SmallSet.Has", "charset/charset.go:SmallSet.Size"]}
{"id": "C03", "title": "The input wrapper is a cursor over the data", "statement": "After any sequence of SeekTo, Peek, PeekBefore and successful Advance calls, Pos() is the position a plain index would have, Peek() returns the byte at that position (false exactly at or past the end), PeekBefore() the byte before it, wherever the 4096-byte cache boundaries fall, and Furthest() is the largest position peeked so far.", "quantifier": "every data string of every length and every sequence of operations", "why_tests_cant": "cache-boundary behaviour depends on the interaction of data length, chunk size and operation history", "anchors": ["input/input.go:NewInput", "input/input.go:refill", "input/input.go:Peek", "input/input.go:PeekBefore", "input/input.go:SeekTo", "input/input.go:Advance", "input/input.go:Furthest"]}
{"id": "C04", "title": "Advance(n) succeeds exactly when n more bytes exist", "statement": "Advance(n) returns true iff at least n bytes remain at the current position, and then the position has moved by n.", "quantifier": "every data string, position and n", "why_tests_cant": "only some alignments of position, n and cache size show a failure", "anchors": ["input/input.go:Advance"]}
{"id": "C05", "title": "FromReader gives random access to the stream's bytes", "statement": "ReadAt(b, off) on FromReader(r) returns the bytes of the whole stream at [off, off+len(b)) cut at the end of the stream, and an error whenever it returns fewer than len(b) bytes, whatever was read before and however the reader splits its data over Read calls.", "quantifier": "every stream, every way of splitting it into reads, every history of earlier ReadAt calls, every offset and length", "why_tests_cant": "reads may be short at any point and histories are unbounded", "anchors": ["input/reader.go:FromReader", "input/reader.go:ReadAt", "input/reader.go:Slice"]}
{"id": "C06", "title": "Instruction operands survive encoding", "statement": "Every operand Encode accepts (bytes, 16-bit ids, 24-bit labels and indices) is read back unchanged by the virtual machine, and Encode panics on exactly the operands that do not fit.", "quantifier": "every operand value", "why_tests_cant": "2^24 label values and signed boundaries", "anchors": ["vm/code.go:encodeU8", "vm/code.go:encodeI16", "vm/code.go:encodeU24", "vm/vm.go:decodeU24", "vm/vm.go:decodeI16", "vm/vm.go:decodeU8"]}
{"id": "C07", "title": "Bytecode means the same as the instruction list", "statement": "If Encode(prog) succeeds, then executing the bytecode is, step by step, executing the instruction list: every non-label instruction decodes back to itself at its byte offset, every jump lands on the instruction that follows its label, and the program ends with a successful End.", "quantifier": "every program Encode accepts and every execution", "why_tests_cant": "label offsets depend on the sizes of all preceding instructions; any one wrong size shifts every later target", "anchors": ["vm/code.go:Encode", "vm/op.go:size", "vm/vm.go:exec"]}
{"id": "C08", "title": "Parsing implements PEG semantics", "statement": "For a pattern p that compiles, Exec on Encode(Compile(p)) reports a match ending at j iff p matches the prefix [0,j) of the input under the standard semantics of parsing expression grammars (ordered choice, greedy possessive repetition, syntactic predicates, mutually recursive non-terminals), and reports no match iff p fails.", "quantifier": "every pattern (any nesting, any grammar), every input of any length", "why_tests_cant": "unbounded patterns and inputs; the compiler has a dozen optimizations that interact", "anchors": ["pattern/compile.go", "pattern/optimize.go", "vm/code.go:Encode", "vm/vm.go:exec"]}
{"id": "C09", "title": "Captures are exactly those of the successful parse", "statement": "On a match the capture tree returned by Exec is the one the PEG semantics assigns: one node per successful Cap on the successful path, with its id, start, length and nested children in order; nothing captured on a path that was later abandoned (failed alternative, not-predicate, last failing iteration of a repetition) survives.", "quantifier": "every pattern with captures and every input", "why_tests_cant": "backtracking can discard captures at any depth; the compiler replaces captures by three different instruction sequences", "anchors": ["pattern/compile.go:CapNode.Compile", "vm/vm.go:opCaptureBegin", "vm/vm.go:opCaptureLate", "vm/vm.go:opCaptureFull", "vm/vm.go:opCaptureEnd", "vm/stack.go"]}
{"id": "C10", "title": "Error recovery reports every error in order", "statement": "The list of parse errors returned by Exec is the list of (position, message) pairs of the Error patterns evaluated, in evaluation order; after an Error with a recovery pattern parsing continues as the recovery pattern from that position, and an Error without one ends the whole parse with no match.", "quantifier": "every pattern containing Error nodes and every input", "why_tests_cant": "errors interact with backtracking and with optimizations that reorder or skip work", "anchors": ["pattern/compile.go:ErrorNode.Compile", "vm/vm.go:opError", "vm/vm.go:opEnd"]}
{"id": "C11", "title": "Peephole optimization does not change results", "statement": "Running the optimized program (head-fail and jump replacement) gives the same match result, end position, captures and errors as running the unoptimized one.", "quantifier": "every program produced by the compiler and every input", "why_tests_cant": "rewrites depend on adjacency and label placement over whole programs", "anchors": ["pattern/optimize.go:Optimize"]}
{"id": "C12", "title": "Pattern simplification does not change the language", "statement": "Replacing a pattern by its simplified form (merging single characters into sets, turning '!x .' into a set, dropping empty parts, collapsing optional stars) never changes whether it matches, where it ends, or what it captures.", "quantifier": "every pattern, input and position", "why_tests_cant": "simplifications apply recursively and in combination", "anchors": ["pattern/optimize.go:Get", "pattern/optimize.go:combine"]}
{"id": "C13", "title": "Inlining non-terminals does not change the language", "statement": "Inlining in a grammar never changes the result of matching any of its non-terminals, and it always terminates.", "quantifier": "every grammar and input", "why_tests_cant": "which definitions are inlined depends on global size and recursion structure", "anchors": ["pattern/optimize.go:GrammarNode.Inline", "pattern/optimize.go:GrammarNode.inline", "pattern/nodes.go:WalkPattern"]}
{"id": "C14", "title": "Compiled programs never make the virtual machine panic", "statement": "Exec on a program obtained from Compile and Encode never hits an internal panic (bad return, missing stack entry, invalid opcode, out-of-range table index or instruction pointer).", "quantifier": "every pattern that compiles, every input and every point of the execution", "why_tests_cant": "the stack discipline must hold along every control path", "anchors": ["vm/vm.go:exec", "vm/stack.go"]}
{"id": "C15", "title": "Parsing terminates for well-formed grammars", "statement": "If no repetition has a body that can match the empty string and no non-terminal is left-recursive, Exec terminates on every input.", "quantifier": "every well-formed pattern and every input", "why_tests_cant": "termination is not observable by finite testing", "anchors": ["vm/vm.go:exec", "pattern/compile.go:StarNode.Compile"]}
{"id": "C16", "title": "Compile always terminates and reports unresolved non-terminals", "statement": "Compile terminates on every pattern; a successful result contains no unresolved call, and an error is a not-found error naming a non-terminal that is used but has no definition.", "quantifier": "every pattern", "why_tests_cant": "unbounded nesting of grammars and inlining", "anchors": ["pattern/compile.go:Compile", "pattern/compile.go:GrammarNode.Compile", "pattern/compile.go:NotFoundError"]}
{"id": "C17", "title": "Search finds the first occurrence", "statement": "Search(p) matches at the smallest start position at or after the current one where p matches, ends where that match ends, and fails only if p matches nowhere in the rest of the input.", "quantifier": "every pattern p and every input", "why_tests_cant": "the skipping heuristic depends on the first instruction compiled for p", "anchors": ["pattern/pattern.go:Search", "pattern/compile.go:SearchNode.Compile"]}
{"id": "C18", "title": "Predicates consume nothing and are dual", "statement": "Not(p) and And(p) never move the position; Not(p) succeeds iff p fails, And(p) succeeds iff p succeeds, and And(p) matches exactly like Not(Not(p)).", "quantifier": "every pattern p, input and position", "why_tests_cant": "p is arbitrary", "anchors": ["pattern/pattern.go:Not", "pattern/pattern.go:And", "pattern/compile.go:NotNode.Compile", "pattern/compile.go:AndNode.Compile"]}
{"id": "C19", "title": "Pattern constructors mean what they say", "statement": "Concat matches its arguments one after the other, Or is the first argument that matches, Repeat(p,n) is p exactly n times, Optional(p) never fails, Plus(p) is p followed by Star(p), Any(n) consumes n bytes and fails only if fewer remain.", "quantifier": "every argument list, count, input and position", "why_tests_cant": "argument lists and counts are unbounded", "anchors": ["pattern/pattern.go:Concat", "pattern/pattern.go:Or", "pattern/pattern.go:Repeat", "pattern/pattern.go:Any", "pattern/pattern.go:Optional"]}
{"id": "C20", "title": "Results do not depend on map iteration order", "statement": "Compiling a grammar gives programs with the same parse results whatever order Go iterates over the map of definitions.", "quantifier": "every grammar, every permutation of its definitions, every input", "why_tests_cant": "map order is random per run", "anchors": ["pattern/compile.go:GrammarNode.Compile", "pattern/pattern.go:Grammar"]}
{"id": "C21", "title": "Memoization is transparent", "statement": "Exec with a memoization table gives the same match, end position and captures as Exec without one; running Exec again on the same text with the table of the previous run gives the same result again.", "quantifier": "every pattern with memoized parts, every input, every number of repeated runs and every table threshold", "why_tests_cant": "which entries are reused depends on the whole parse history", "anchors": ["vm/vm.go:opMemoOpen", "vm/vm.go:opMemoClose", "vm/vm.go:opMemoTreeOpen", "vm/vm.go:opMemoTree", "memo/tree.go:TreeTable", "pattern/compile.go:MemoNode.Compile", "pattern/compile.go:StarNode.Compile"]}
{"id": "C22", "title": "Incremental reparse equals full reparse", "statement": "After any sequence of edits, each reported to the table with ApplyEdit and followed or not by a parse, Exec with the table gives the same result as a fresh parse of the edited text.", "quantifier": "every pattern, every initial text and every sequence of edits and parses", "why_tests_cant": "edit histories are unbounded and staleness shows only for particular overlaps", "anchors": ["memo/tree.go:TreeTable.ApplyEdit", "vm/vm.go:memoize", "memo/interval/lazylog/tree.go"]}
{"id": "C23", "title": "Interval map lookup", "statement": "FindLargest(id,pos) returns a stored value whose id is id and whose interval currently starts at pos, of the largest extent among those stored there, and nil only if nothing is stored there.", "quantifier": "every sequence of Add, FindLargest, Pos and RemoveAndShift operations", "why_tests_cant": "balanced-tree shape and pending lazy shifts depend on the whole history", "anchors": ["memo/interval/map.go", "memo/interval/lazylog/tree.go:FindLargest", "memo/interval/lazylog/tree.go:search"]}
{"id": "C24", "title": "RemoveAndShift leaves nothing stale", "statement": "After RemoveAndShift(low,high,amt) no value whose interval overlapped [low,high) can be found any more, and every value that can still be found is one that was stored before, moved by amt iff it started at or after low.", "quantifier": "every reachable map and every edit-shaped removal", "why_tests_cant": "lazy shifts and the subtree maximum used for pruning must agree in every tree", "anchors": ["memo/interval/lazylog/tree.go:RemoveAndShift", "memo/interval/lazylog/tree.go:removeOverlaps", "memo/interval/lazylog/tree.go:applyShift"]}
{"id": "C25", "title": "RemoveAndShift keeps everything else", "statement": "RemoveAndShift(low,high,amt) does not remove values whose intervals do not overlap [low,high).", "quantifier": "every reachable map and every removal", "why_tests_cant": "only some tree shapes lose entries", "anchors": ["memo/interval/lazylog/tree.go:removeOverlaps", "memo/interval/lazylog/tree.go:remove", "memo/interval/lazy/array.go:RemoveAndShift"]}
{"id": "C26", "title": "Position handles follow their value", "statement": "The handle returned by Add reports, at any later time before its value is removed, the value's current start position, i.e. the start at insertion moved by every later shift that applied to it.", "quantifier": "every history of operations", "why_tests_cant": "lazy shifts may be pending at any node in any order", "anchors": ["memo/interval/lazylog/tree.go:lazyInterval.Pos", "memo/interval/lazylog/tree.go:applyShifts"]}
{"id": "C27", "title": "Size counts stored values", "statement": "Size() of an interval map is the number of values currently stored.", "quantifier": "every history of operations", "why_tests_cant": "needs histories with several values under one key", "anchors": ["memo/interval/map.go:Map.Size", "memo/interval/lazylog/tree.go:Tree.Size", "memo/interval/lazy/array.go:Size"]}
{"id": "C28", "title": "Capture iteration sees through internal nodes", "statement": "ChildIterator yields exactly the proper capture nodes below a capture in input order, skipping internal grouping nodes at any depth; NumChildren is their number and Child(n) the n-th of them, nil past the end.", "quantifier": "every capture tree", "why_tests_cant": "grouping nodes nest to unbounded depth", "anchors": ["memo/capture.go:ChildIterator", "memo/capture.go:NumChildren", "memo/capture.go:Child"]}
{"id": "C29", "title": "Capture extents are nested and inside the match", "statement": "Every capture returned by a successful Exec satisfies 0 <= Start() <= End() with siblings and children of lookahead-free patterns ordered, disjoint and contained in their parent, all inside the matched prefix.", "quantifier": "every pattern and input", "why_tests_cant": "depends on all capture and backtracking paths", "anchors": ["memo/capture.go", "vm/vm.go:opCaptureEnd"]}
{"id": "C30", "title": "Rope edits are string edits", "statement": "After any sequence of Insert and Remove calls with in-range arguments, Value() is the string obtained by the same edits on a plain byte string, and Len() its length.", "quantifier": "every initial text, every edit sequence, every option setting with SplitLen >= 1", "why_tests_cant": "tree shape depends on the whole history", "anchors": ["input/linerope/rope.go:New", "input/linerope/rope.go:Insert", "input/linerope/rope.go:Remove", "input/linerope/rope.go:adjust", "input/linerope/rope.go:buildTree"]}
{"id": "C31", "title": "Rope reads are string reads", "statement": "ReadAt, At and WriteTo on a rope return exactly the bytes of Value() at the requested range, with EOF exactly when the range reaches the end.", "quantifier": "every reachable rope, offset and length", "why_tests_cant": "ranges may straddle any number of leaves", "anchors": ["input/linerope/rope.go:ReadAt", "input/linerope/rope.go:slice", "input/linerope/rope.go:At", "input/linerope/rope.go:WriteTo"]}
{"id": "C32", "title": "Rope line/column conversion", "statement": "For a one-byte line separator, LineColAt(pos) is the number of separators before pos and the distance from the last of them, OffsetAt is its inverse, NumLines is the number of separators, and SliceLC returns the bytes between two positions.", "quantifier": "every reachable rope, every position", "why_tests_cant": "line counts are aggregated over an arbitrary tree", "anchors": ["input/linerope/rope.go:LineColAt", "input/linerope/rope.go:OffsetAt", "input/linerope/rope.go:SliceLC", "input/linerope/line.go", "input/linerope/util.go"]}
{"id": "C33", "title": "Splitting and joining ropes", "statement": "SplitAt(i) returns ropes holding the first i bytes and the rest; Join concatenates; all reads and edits keep working on the results.", "quantifier": "every reachable rope and index", "why_tests_cant": "tree shape depends on history", "anchors": ["input/linerope/rope.go:SplitAt", "input/linerope/rope.go:Join"]}
{"id": "C34", "title": "Rebuilding and rebalancing a rope keep its contents", "statement": "Rebuild() and Rebalance() leave Value() and Len() unchanged and the rope usable.", "quantifier": "every reachable rope", "why_tests_cant": "needs multi-node ropes of particular balance", "anchors": ["input/linerope/rope.go:Rebuild", "input/linerope/rope.go:Rebalance"]}
{"id": "C35", "title": "Checkers decide matches", "statement": "Check(p,c) matches iff p matches and the checker accepts the matched bytes, then skips the number of bytes the checker returns; MapChecker accepts exactly the listed strings; a BackReference use matches exactly the text last defined under the same id.", "quantifier": "every pattern, checker, input and definition history", "why_tests_cant": "checker state depends on the whole evaluation history", "anchors": ["isa/checker.go", "vm/vm.go:opCheckBegin", "vm/vm.go:opCheckEnd", "pattern/compile.go:CheckNode.Compile"]}
{"id": "C36", "title": "Zero-width assertions", "statement": "EmptyOp(op) consumes nothing and succeeds iff one of the requested conditions (begin/end of line or text, word boundary or not) holds at the current position as Go's regexp package defines it.", "quantifier": "every input, position and condition", "why_tests_cant": "boundary positions at both ends and cache edges", "anchors": ["vm/vm.go:opEmpty", "pattern/compile.go:EmptyOpNode.Compile", "input/input.go:PeekBefore"]}
{"id": "C37", "title": "Interval-restricted captures", "statement": "ExecInterval gives the same match and end position as Exec and exactly those captures of Exec that overlap the interval; a later Exec with the same table still returns all captures.", "quantifier": "every pattern, input, interval and table", "why_tests_cant": "depends on memo history", "anchors": ["vm/vm.go:ExecInterval", "vm/vm.go:overlaps"]}
{"id": "C38", "title": "Regexp conversion preserves leftmost-first matching", "statement": "A pattern produced by FromRegexp, compiled and executed, matches iff the regular expression has a match, and ends where the leftmost-first (Perl) match ends.", "quantifier": "every supported regular expression and every input", "why_tests_cant": "unbounded expressions and inputs; continuation duplication", "anchors": ["rxconv/rxconv.go:pi", "rxconv/rxconv.go:star", "rxconv/rxconv.go:FromRegexp"]}
{"id": "C39", "title": "re syntax denotes the documented patterns", "statement": "re.Compile turns a PEG source text into the pattern its documented grammar describes: every escape denotes the intended byte, classes, literals, operators and grammars map to the corresponding constructors.", "quantifier": "every source text accepted by the re grammar", "why_tests_cant": "unbounded source texts", "anchors": ["re/re.go:compile", "re/re.go:parseChar", "re/grammar.go"]}
{"id": "C40", "title": "Serialized code behaves identically", "statement": "Code restored by FromBytes(ToBytes(c)) or FromJson(ToJson(c)) gives the same results as c.", "quantifier": "every program", "why_tests_cant": "unbounded programs", "anchors": ["vm/code.go:ToBytes", "vm/code.go:FromBytes", "vm/code.go:ToJson", "vm/code.go:FromJson"]}
{"id": "C41", "title": "CapGrammar captures every non-terminal under its own id", "statement": "CapGrammar assigns every non-terminal a distinct id in 0..n-1, reports it in the ids map, and every match of that non-terminal yields one capture with that id.", "quantifier": "every grammar and map order", "why_tests_cant": "ids depend on random iteration order", "anchors": ["pattern/pattern.go:CapGrammar"]}
{"id": "C42", "title": "Captures survive the sharing of slices", "statement": "Captures are collected in Go slices, which share arrays and are appended to in place. A user who follows the returned tree sees exactly the captures of the pattern's semantics, and later parses do not change a tree that was returned earlier.", "quantifier": "every program, input, growth policy of append, heap left by earlier parses; with a memoization table, every history of parses", "why_tests_cant": "which slices share an array depends on capacities and on the history of appends", "anchors": ["vm/stack.go:addCapt", "vm/stack.go:pop", "vm/vm.go:memoize", "memo/tree.go:Put", "memo/entry.go:Captures"]}
{"id": "C43", "title": "lazy.Tree is an interval map", "statement": "lazy.Tree, the second implementation of the interval map, which hands pending shifts down to its children when they are visited: FindLargest(id, pos) returns the largest of the values that the edits so far have left at (id, pos), nil only if there is none; the handle that Add returned gives the position of its value; Size is the number of keys; every parent pointer is right; no operation runs forever.", "quantifier": "every history of Add, FindLargest, RemoveAndShift and Pos", "why_tests_cant": "the pending shifts of a node depend on all earlier operations and on the shape of the tree", "anchors": ["memo/interval/lazy/tree.go:add", "memo/interval/lazy/tree.go:remove", "memo/interval/lazy/tree.go:removeOverlaps", "memo/interval/lazy/tree.go:applyShifts", "memo/interval/lazy/tree.go:rebalanceTree"]}
{"id": "C44", "title": "The shipped grammars are accepted and always terminate", "statement": "Every grammar in the directory grammars is accepted by re.Compile and re.CompileCap, the resulting pattern is compiled without an error, and Exec of the compiled pattern terminates on every input without a panic and with the result the PEG semantics gives (no left recursion, no repetition of an empty match, no undefined name).", "quantifier": "every shipped grammar, every input, buffer size and inline threshold", "why_tests_cant": "termination on all inputs cannot be observed; the grammars have up to 225 mutually recursive rules", "anchors": ["grammars/java.peg", "grammars/c.peg", "grammars/json.peg", "re/re.go:Compile", "pattern/compile.go:GrammarNode.Compile"]}
{"id": "C45", "title": "The shipped JSON grammars recognise JSON", "statement": "A program built from grammars/json.peg or json_memo.peg matches a text if and only if the text is JSON (RFC 8259), and then it matches all of it. As shipped this is false: white space also includes vertical tab and form feed, the escaped braces and bar are allowed, the escaped slash is not, and no string may start with two escapes. With these three changes it holds for every text. Likewise re.peg does not recognise the language of package re.", "quantifier": "every text, buffer size and inline threshold", "why_tests_cant": "all texts of a recursive language", "anchors": ["grammars/json.peg", "grammars/json_memo.peg", "grammars/re.peg"]}
{"id": "C46", "title": "An editor may reparse JSON after every edit", "statement": "With the program of grammars/json_memo.peg and one memoization table, a text may be parsed, edited and parsed again any number of times; each parse gives the result and the captures that a parse with a new table gives. As shipped this is false: if a text that was parsed before has a number that breaks off inside its fraction or exponent, a later valid text can be refused. It holds when no such text was parsed, and only the first edit shortens the text.", "quantifier": "every sequence of parses and edits, every text, buffer size, inline threshold and table threshold", "why_tests_cant": "the content of the table depends on the whole history", "anchors": ["grammars/json_memo.peg", "vm/vm.go:memoize", "memo/tree.go:ApplyEdit"]}
{"id": "C47", "title": "Goroutines may share a memoization table", "statement": "Any number of goroutines may parse the same text with the same program and one TreeTable at the same time. Whatever the order of their Get and Put calls, each gets the match, captures and errors that the semantics gives, and so does every later parse with the table; also when the text was edited once before. A first edit after such parses may leave a wrong entry, unlike after a single parse.", "quantifier": "every order of the operations of any number of goroutines, every pattern with pure memoized parts, input, buffer size and table threshold", "why_tests_cant": "the orders cannot be enumerated, and a test run sees only a few of them", "anchors": ["memo/tree.go:Get", "memo/tree.go:Put", "vm/vm.go:memoize"]}
{"id": "C48", "title": "Interval trees stay balanced", "statement": "The lazylog tree and lazy.Tree are AVL trees: after every history of Add, FindLargest, Pos and RemoveAndShift the two sides of every node differ by at most one in depth, so that an operation visits at most about twice the logarithm of the number of nodes. As shipped this holds without edits; removeOverlaps takes nodes out without balancing the nodes above them, so that after edits the tree can be a list.", "quantifier": "every history of operations, of any length", "why_tests_cant": "the shape depends on the order of all operations; a slow tree gives the right results in every test", "anchors": ["memo/interval/lazylog/tree.go:rebalanceTree", "memo/interval/lazylog/tree.go:removeOverlaps", "memo/interval/lazylog/tree.go:add", "memo/interval/lazy/tree.go:rebalanceTree", "memo/interval/lazy/tree.go:removeOverlaps"]}
{"id": "C49", "title": "Ropes and byte slices do not disturb each other", "statement": "New does not copy, and Insert and Remove write in place when a leaf has room. Still, a program may make several ropes from one slice, insert its slices and reuse those it did not give to New, remove, split and join: every rope shows what the operations do on byte strings, and no slice of the program is ever written by a rope. Every slice may be inserted, also one that the rope itself returned. As shipped the last part is false: after a removal, Insert of what SliceLC returned can insert other bytes; and a slice that SliceLC returned changes with later edits.", "quantifier": "every program of any length, any number of ropes and slices, every option", "why_tests_cant": "whether arrays are shared depends on capacities and on all earlier edits", "anchors": ["input/linerope/rope.go:insert", "input/linerope/rope.go:remove", "input/linerope/rope.go:NewWithOpts", "input/linerope/rope.go:sliceLC", "input/linerope/rope.go:SplitAt"]}
{"id": "C50", "title": "Goroutines may read the positions of captures at the same time", "statement": "Capture.Start, End and so the handle of a lazylog entry may be asked by several goroutines at once: whatever the order of their reads and writes, each is told where the entry is now, every goroutine ends, and the tree stays right. As shipped this is false: Pos applies the pending edits to the node without the mutex, so that two goroutines that ask the same entry after an edit can be told the old position, or move the node twice, for ever. It holds for goroutines that ask different entries, and for entries that were asked once since the last edit.", "quantifier": "every interleaving of single reads and writes of any number of goroutines, every history before", "why_tests_cant": "the wrong interleavings are rare and cannot be enumerated", "anchors": ["memo/interval/lazylog/tree.go:Pos", "memo/interval/lazylog/tree.go:applyShifts", "memo/interval/lazylog/tree.go:applyShift", "memo/capture.go:Start"]}
{"id": "C51", "title": "What is memoized is not parsed again", "statement": "With a memoization table, a memoized pattern is not parsed a second time at the same position, in one parse or in later ones without an edit, so that backtracking over it costs nothing. The table keeps every answer it has; MemoOpen does not enter a pattern that has an answer; a match that is not empty and every failure of a MemoNode are stored. As shipped the property is false for repetitions of memoized patterns: the failure of the repeated pattern is not stored, and a rule that is memoized wherever it is used can take time exponential in the length of the text.", "quantifier": "every bytecode, text, table and number of instructions; the exponential time for every length", "why_tests_cant": "the results are right and only the number of steps is wrong, on texts that no test has", "anchors": ["vm/vm.go:memoize", "vm/vm.go:exec", "memo/tree.go:Put", "memo/tree.go:Get", "pattern/compile.go:StarNode.Compile"]}
{"id": "C52", "title": "The text of a character set names its bytes", "statement": "Set.String gives a text of characters and ranges of characters, written as Go writes them, such that a byte is named by the text exactly if it is in the set. The ranges are in order and as long as possible, and different sets have different texts.", "quantifier": "every set", "why_tests_cant": "there are 2^256 sets, and mistakes are at the ends: single bytes, the last two bytes, quotes and commas in the set", "anchors": ["charset/charset.go:String"]}
{"id": "C53", "title": "The printed form of a pattern tells what it matches", "statement": "Two patterns with the same printed form (Prettify) match in the same way. Proved for patterns of literals, sets, Any(1), assertions, non-terminals whose names are identifiers, errors whose message has no comma, sequences, alternatives, repetitions, options, predicates, memoization and search in which no predicate is repeated or optional without parentheses; with captures, apart from their identifiers; and for grammars of such patterns. Otherwise it is false: Any(1) and Any(2) have the same form, so have an optional negation and the negation of an option, captures with different identifiers, and patterns with different checkers; and the form of a grammar depends on the order in which Go goes over a map.", "quantifier": "every pattern, text, scope and position; every quoting of literals that can be read back", "why_tests_cant": "one of two meanings is always the one that a test expects", "anchors": ["pattern/string.go:Prettify", "pattern/optimize.go:Get", "charset/charset.go:String"]}
{"id": "C54", "title": "A rope has short leaves, long nodes and little depth", "statement": "After any operations no leaf of a rope is longer than SplitLen and no inner node shorter than JoinLen (if JoinLen is at most SplitLen + 1), the leaves from left to right are the text, and Each visits every node once, parents before children. The depth of a new rope is at most twice the logarithm of the number of its chunks. Its depth should stay logarithmic; as shipped it does not: a text typed at its end becomes a list of leaves, at least one level for each SplitLen bytes, and Remove keeps the depth even if only JoinLen bytes are left.", "quantifier": "every history of New, Insert, Remove, SplitAt and Join; all options; all texts", "why_tests_cant": "the shape depends on the whole history and on the options; wrong shapes give right texts, only later or slower", "anchors": ["input/linerope/rope.go:adjust", "input/linerope/rope.go:Each", "input/linerope/rope.go:NewWithOpts", "input/linerope/rope.go:buildTree", "input/linerope/rope.go:Insert", "input/linerope/rope.go:Remove"]}
{"id": "C55", "title": "The listing of a program tells the program", "statement": "Two programs with the same printed form (Program.String, as shown by cmd/gpeg) have the same instructions, operands and labels in the same order, apart from Nops, which are neither printed nor encoded; so they are encoded as the same code. Proved for programs without checkers, open calls and empty assertions other than the six of the regexp package. For these it is false: CheckBegin is printed without its id and flag, and every other assertion is printed as Unknown.", "quantifier": "every program; every quoting of error messages that is injective and has no newline", "why_tests_cant": "two programs that look alike give listings that look right", "anchors": ["isa/isa.go:String", "isa/isa.go:emptyToString", "vm/code.go:Encode"]}
{"id": "C56", "title": "The text of a capture tells its tree", "statement": "Captures have the same text (Capture.String) exactly if they have the same identifiers, nested in the same way. For captures without internal nodes this is the tree that ChildIterator shows. In general it is false: internal nodes are shown as captures with the identifier 0, so the same text parsed again after an edit can give the same captures and another printed tree.", "quantifier": "every pair of captures", "why_tests_cant": "a test compares the texts of two results of the same history", "anchors": ["memo/capture.go:String", "memo/capture.go:NewCaptureDummy", "vm/vm.go:exec"]}
{"id": "C57", "title": "Positions and lengths are never negative", "statement": "The machine computes lengths as the current position minus a position on its stack, and starts of captures as the current position minus an operand of the instruction. In Go these are ints, and a negative one would be stored in the table or make Slice panic. At every step of every run the positions on the stack are not behind the current one, and in the program of any pattern a capture that starts some bytes back does not start before the text.", "quantifier": "every bytecode (stack) and the program of every pattern (captures), every text, table, checker, interval and step", "why_tests_cant": "whether a position is behind another depends on how backtracking, memoized lengths and merged repetitions combine in the whole run", "anchors": ["vm/vm.go:exec", "vm/vm.go:memoize", "vm/stack.go:pop", "pattern/compile.go:CapNode.Compile", "pattern/optimize.go:Optimize", "input/input.go:Advance", "input/input.go:SeekTo"]}
{"id": "C58", "title": "Instructions find on the stack what they expect", "statement": "The instructions of the machine that end something (a choice, a call, a memoized pattern, a repetition, a capture, a checker) take the top of the stack for the entry of that thing. Commit and FailTwice do not even look what it is, and captures are kept in the entries. In the program of every pattern the machine is always at the beginning of an instruction, each of these instructions finds an entry of its kind on top, and when the match has succeeded the stack is empty, so that no capture is lost in an entry that was left there.", "quantifier": "the program of every pattern; every text, table, checker, interval and step", "why_tests_cant": "what is on the stack depends on how alternatives, calls, predicates, memoization and the optimizer's jumps combine in the whole run", "anchors": ["vm/vm.go:exec", "vm/stack.go:pop", "vm/stack.go:peek", "pattern/compile.go:Compile", "pattern/optimize.go:Optimize"]}
{"id": "C59", "title": "Slices, streams and ropes are parsed alike, also by many goroutines", "statement": "An Input over a byte slice, over a stream (FromReader) and over a rope gives the same answers to the same calls: those of a cursor over the bytes. Bytes that earlier fillings have left in the cache are never seen, and no call panics. Any number of goroutines may parse one reader at the same time, each with an input of its own, as Exec makes them: each sees what it would see alone, although the calls on a stream by one goroutine change what is left for the others.", "quantifier": "every text; every history of edits of the rope and every division of the stream into pieces; any number of goroutines, any calls, in any order", "why_tests_cant": "the answers depend on where pieces, leaves and cache fillings end and on the order of calls", "anchors": ["input/input.go:NewInput", "input/input.go:refill", "input/input.go:Peek", "input/input.go:PeekBefore", "input/input.go:SeekTo", "input/input.go:Advance", "input/input.go:Slice", "input/reader.go:ReadAt", "input/linerope/rope.go:ReadAt"]}
{"id": "C60", "title": "An editor may keep its text in a rope", "statement": "An editor keeps its text in a rope and parses it with a memoization table. It replaces parts of the text by Remove and Insert on the rope and tells the table by ApplyEdit. Each such edit works, and each parse of the rope gives the result of the semantics on its bytes, as if they were parsed from scratch.", "quantifier": "every pattern, text, rope options, table threshold, chunk size; any number of edits and parses in any order", "why_tests_cant": "rope, cache and table have states of their own, which depend on the whole session", "anchors": ["input/linerope/rope.go:Insert", "input/linerope/rope.go:Remove", "input/linerope/rope.go:ReadAt", "memo/tree.go:ApplyEdit", "vm/vm.go:Exec"]}
{"id": "C61", "title": "Goroutines may compile at the same time", "statement": "The code of a pattern does not depend on what the program compiled before, nor on what other goroutines compile at the same time: every goroutine gets the code that it gets alone. The identifiers that Memo gives to patterns are different even if goroutines build patterns at the same time.", "quantifier": "every pattern; any number of goroutines, every interleaving of their accesses to the counters of labels and memo identifiers, every value of the counters", "why_tests_cant": "the counters are global variables without a lock; the interleavings that make two labels of a program equal are rare and cannot be forced by a test", "anchors": ["isa/isa.go:NewLabel", "pattern/pattern.go:Memo", "pattern/compile.go:Compile", "pattern/optimize.go:Optimize", "vm/code.go:Encode"]}
{"id": "C62", "title": "Edits may be told byte by byte", "statement": "An edit may be split into edits that each remove or insert one byte (EditToEdits, ToSingleEdits). They can be made one after the other and give the same text, also on a rope. An editor that tells the table of its edits in this way gets from each parse the result of the semantics on the text, as if it were parsed from scratch, whatever the edits were.", "quantifier": "every text, pattern, table threshold; any edits and parses in any order, also edits that make the text shorter", "why_tests_cant": "the table's tree depends on all edits before; the same edits told at once leave wrong entries in it", "anchors": ["bench/edit.go:EditToEdits", "bench/edit.go:ToSingleEdits", "memo/tree.go:ApplyEdit", "memo/interval/lazylog/tree.go:RemoveAndShift", "memo/interval/lazylog/tree.go:applyShift"]}
{"id": "C63", "title": "The Java grammar of the benchmarks takes every text", "statement": "The grammar of bench/java.go matches every text to its end without errors. Each of its captures holds a line comment up to the end of its line, a name before a parenthesis, one of the words public, protected and private, a string up to the first quote that is not escaped, or a newline. A line comment ends where the next line of the rope starts, so removing a comment removes exactly its capture.", "quantifier": "every text, buffer size, inline threshold", "why_tests_cant": "the shape of the captures depends on all bytes before them, and the edits of the benchmarks rely on it", "anchors": ["bench/java.go:BlockPatt", "bench/java.go:WordMatch", "bench/java.go:grammar", "bench/edit.go:GenerateEdits"]}
