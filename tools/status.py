status = {
 'C01': ('proved', ''),
 'C02': ('proved', ''),
 'C03': ('proved', ''),
 'C04': ('partial', 'The code violates the property for n > 1 across a cache boundary and for n = 0 at the end (C04_advance_refuted, C04_advance0_refuted). Proved: the exact behaviour away from the boundary and the full property for n = 1.'),
 'C05': ('proved', 'C05_spurious_eof_refuted records that an error can accompany a full result.'),
 'C06': ('proved', ''),
 'C07': ('proved', 'C07_run also shows that the machine on the bytes and the machine on the instruction list do the same.'),
 'C08': ('partial', 'As stated, for every pattern, the code violates the property. For well-scoped patterns whose Any nodes are Any(1) (C08_any_refuted shows the code is wrong for Any(2) at the start of a choice and C08_any_long_refuted at the end of a chunk; C08_wide_partial covers Any(n) elsewhere, on texts of at most one chunk) and whose grammars define names once; checkers must not skip past the end. C08_shadow_refuted and C08_search_refuted show that the conditions on names are needed too. C08_only_partial, from a run to the semantics, holds up to double negation (no axiom of excluded middle is used).'),
 'C09': ('partial', 'Proved for patterns whose names are well scoped, whose grammars define a name once and whose Any nodes are Any(1), with checkers that do not skip past the end; missing: all other patterns (see C08).'),
 'C10': ('partial', 'Proved for patterns whose names are well scoped, whose grammars define a name once and whose Any nodes are Any(1), with checkers that do not skip past the end; missing: all other patterns (see C08).'),
 'C11': ('partial', 'As stated, for every compiled program, the code violates the property. For programs without Any(n), n > 1; C11_any_refuted shows that Optimize changes the meaning of Any(2).'),
 'C12': ('proved', ''),
 'C13': ('partial', 'As stated, for every grammar, the code violates the property. For grammars where an inner grammar does not redefine a name of an enclosing one; C13_shadow_refuted shows the condition is needed.'),
 'C14': ('proved', 'For every pattern, table, checker and interval. The machine is abstracted to the kinds of its stack entries (Proof_Safe.v); every fragment of emitted code keeps the stack discipline (Proof_SafeCode.v), and so do the removal of returns and Optimize (Proof_SafeMain.v). The panics counted are those of vm.go and of decoding; a checker that panics itself is outside of the model.'),
 'C15': ('partial', 'Proved for patterns whose names are well scoped, whose grammars define a name once and whose Any nodes are Any(1), with checkers that do not skip past the end; missing: all other patterns (see C08). C15_total, on the semantics, needs none of this. C15_loops shows the two conditions of the property are needed.'),
 'C16': ('partial', 'Everything is proved if "has no definition" means the innermost grammar or search. As stated the code violates it: C16_scope_refuted: a name counts as defined only in the innermost grammar or search around its use; the compiler reports it as not found even if an outer grammar defines it.'),
 'C17': ('partial', 'C17_search is about the semantics, for every pattern. The machine, C17_exec_partial: Proved for patterns whose names are well scoped, whose grammars define a name once and whose Any nodes are Any(1), with checkers that do not skip past the end; missing: all other patterns (see C08).'),
 'C18': ('partial', 'C18_not, C18_and and C18_dual are about the semantics, for every pattern. The machine, C18_exec_partial: Proved for patterns whose names are well scoped, whose grammars define a name once and whose Any nodes are Any(1), with checkers that do not skip past the end; missing: all other patterns (see C08).'),
 'C19': ('partial', 'Concat, Or, Repeat, Optional and Plus are proved for the semantics; the clause about Any(n) is violated by the code. C19_any_refuted: Any(2) does not mean Any(1) twice on the machine.'),
 'C20': ('partial', 'Proved for patterns whose names are well scoped, whose grammars define a name once and whose Any nodes are Any(1), with checkers that do not skip past the end; missing: all other patterns (see C08).'),
 'C28': ('proved', ''),
 'C29': ('partial', 'Proved for patterns whose names are well scoped, whose grammars define a name once and whose Any nodes are Any(1), with checkers that do not skip past the end; missing: all other patterns (see C08).'),
 'C35': ('proved', 'C35_backtrack_refuted records that definitions survive backtracking.'),
 'C36': ('proved', ''),
 'C37': ('partial', 'Proved without a memoization table; with one the code violates the property in both directions (C37_table_refuted).'),
 'C21': ('partial', 'Proved for every text, table threshold and number of parses, for patterns where a memo id stands for one thing and memoized patterns report no errors and use no stateful checkers (C21_errors_refuted: errors inside of a memoized pattern get lost). Missing: these theorems are about a machine with lists of captures; with the slices of the code, which share arrays, the property is false (C21_alias_refuted) and holds for memoized patterns of at most two captures (C42).'),
 'C22': ('partial', 'Proved for memoized patterns without Any, Search, checkers and errors, when no edit but the first makes the text shorter by more than one byte: for one round of edits after the first parse, and for any number of rounds (C22_history_...) when no memoized pattern contains another and none is repeated directly. The code violates the property otherwise: C22_rounds_refuted (a memoized pattern in another), C22_repeat_refuted (repeated directly), C22_any_refuted (Any), C22_shrink_refuted (a later edit that makes the text three bytes shorter). Edits that are told byte by byte need no restriction (C62). The positions of captures may be read at any time in between, although that changes the tree.'),
 'C41': ('proved', ''),
 'C42': ('partial', 'Without memoization: proved for all bytecode, inputs, intervals and growth policies (C42_lists, C42_result). With a tree table: proved if memoized patterns give at most two captures and are not repeated, or give none. Missing: other memoized patterns, for which it is false (C21_alias_refuted); edits of the table.'),
 'C40': ('partial', 'On trees of values (the text of JSON, the stream of gob and gzip are trusted). C40_json is the exact condition for JSON: no checkers and messages in UTF-8; C40_bytes_partial: with gob all programs whose checkers are maps. The claim is false otherwise: C40_refuted, C40_backref, C40_user.'),
 'C23': ('partial', 'For lazylog, histories without edits are fully covered (C23_plain); with edits C23_find_partial covers calm histories (no edit but the first makes the text shorter by more than one byte) and is relative to the values still in the tree, since the code loses values (C25_refuted). The array implementation satisfies the property after every history (C23_array).'),
 'C24': ('partial', 'The code violates the property (C24_refuted: a value that meets the edited range is still found after the text got shorter). Proved for calm histories, and for the array implementation after every history.'),
 'C25': ('partial', 'The code violates the property (C25_refuted, C25_touching_refuted). Proved: a first edit that meets and touches nothing keeps everything; the array implementation always does.'),
 'C26': ('partial', 'For lazylog on calm histories, where handles are asked at any time: proved for values in the tree (C26_handle_partial) and for all values that no edit touches, also those that the tree has lost (C26_untouched_partial, C26_together_partial). The code violates the property on other histories (C26_refuted: the handle of a value in the tree is wrong after several edits made the text shorter by several bytes) and for values that an edit only touches (C26_touched_refuted). Proved for the array after every history.'),
 'C27': ('partial', 'The code violates the property (C27_refuted). Proved for histories without edits and with distinct places; for the array always.'),
 'C30': ('proved', 'SplitLen 0 divides by zero (C30_split0_refuted).'),
 'C31': ('proved', ''),
 'C32': ('proved', 'C32_leaf: in a single leaf lines are counted rightly for every separator. C32_multibyte_refuted and C32_across_refuted: separators of more than one byte do not work.'),
 'C33': ('proved', 'For ropes that are not used any more after they were joined or split.'),
 'C34': ('partial', 'The code violates the property: Rebuild of a rope with more than one leaf always panics or leaves a rope that panics (C34_rebuild_refuted), and Rebalance does so with the default ratio (C34_rebalance_refuted). Proved for ropes shorter than JoinLen, and for Rebalance of ropes in balance.'),
 'C38': ('partial', 'Proved for greedy expressions without case folding whose repeated parts match at least one character, on ASCII texts or for expressions without dots and with suitable classes; compiling needs that no repetition is inside of another. Outside of that the code violates the property: eight refutations, among them nested repetitions (do not compile) and (a?)*b (runs forever).'),
 'C39': ('partial', 'Proved for every text, read by a transcription of the documented grammar, and for texts written from syntax trees, except for octal numbers above 177, empty classes and single braces, where the code violates the property (three refutations). Errors are returned exactly for the texts that the grammar does not allow (C39_error).'),
 'C44': ('proved', 'C44_shipped: all nine grammars, every inline threshold, every input. Compiling starts with the counters of a new process (what happens to them later is in C61). C44_memo_partial and C44_memo_default: the same results with a memoization table, also after one round of edits, with the restrictions of C22.'),
 'C45': ('partial', 'As stated first, the grammars recognise JSON, the code violates the property. C45_recognises gives the language of both grammars exactly, for all texts; C45_complete_refuted and C45_sound_refuted show where it is not JSON, C45_rfc_partial that it is JSON otherwise; C45_re_refuted is about re.peg. C45_memo_partial: the same language with a memoization table and after one round of edits, with the restrictions of C22.'),
 'C46': ('partial', 'C46_history_partial: any number of parses and edits, when the texts parsed before are clean (no number breaks off inside its fraction or exponent) and no edit but the first makes the text shorter by more than one byte. Proved false otherwise: C46_rounds_refuted, where three parses and two edits lead to a JSON text that is refused. That later edits may not shorten the text by more comes from C22 (C22_shrink_refuted); no witness of that for JSON is given.'),
 'C47': ('partial', 'Proved for every order of the Get and Put calls. Missing: memory that goroutines share outside of the mutex (captures are lists here, see C42; positions are in C50), and edits during a parse. C47_edit_refuted: after two goroutines have parsed, the first edit can leave a wrong entry in the table, which cannot happen after one parse (C22).'),
 'C48': ('partial', 'Proved for lazylog and for lazy.Tree on histories without edits (C48_balanced_partial, C48_depth_partial, C48_lazy_balanced_partial, C48_lazy_depth_partial), and for single additions and removals in any balanced tree (C48_add, C48_remove, C48_lazy_add, C48_lazy_remove). With edits the code violates the property in both (C48_refuted, C48_lazy_refuted).'),
 'C49': ('partial', 'C49_programs: proved for every program that inserts only slices of its own and does not use a rope any more after SplitAt or Join; C49_copy: also for slices of another rope. The code violates the property for slices that came from the rope (C49_paste_refuted, C49_kept_refuted) and for a rope that was split (C49_split_refuted). Rebuild is not in the model with arrays (it does not work, C34).'),
 'C50': ('partial', 'The code violates the property for goroutines that ask the same entry after an edit (C50_stale_refuted, C50_twice_refuted). Proved when every entry was asked once since the last edit (C50_asked, all histories) and for goroutines that ask different entries (C50_apart_partial, histories in which no edit but the first makes the text shorter by more than one byte, entries that are still in the tree). The steps see memory in one order, which is more than Go promises for programs with races. Missing: Get, Put and ApplyEdit at the same time.'),
 'C51': ('partial', 'For every bytecode: answers stay in the table (C51_keeps), are used (C51_skips), and are stored (C51_matched, C51_failed); together C51_once_partial. The code violates the property for repetitions (C51_refuted: at least 2^n instructions for n bytes). In the program of any pattern a MemoNode that was entered and left has an answer (C51_left) and is not entered again at the same position (C51_twice), except after an empty match, which Put does not store.'),
 'C52': ('proved', 'For the runes 0..255, strconv.QuoteRuneToASCII is transcribed from the Go library.'),
 'C53': ('partial', 'Proved for legible patterns (C53_meaning_partial), whose printing ends (C53_ends); with captures everything but their identifiers is told (C53_captures_partial), and for grammars of legible definitions, in whatever order they are printed (C53_grammar_partial). The code violates the property for Any(n), for repeated or optional predicates, for identifiers of captures and for checkers (C53_any_refuted, C53_prefix_refuted, C53_capture_refuted, C53_check_refuted), and the form of a grammar is not determined (C53_order_refuted). strconv.Quote is a parameter that can be read back. Missing: grammars inside of other patterns, and errors whose message has a comma.'),
 'C54': ('partial', 'Leaves, inner nodes, Each (C54_leaves, C54_inner, C54_each) and the depth of new ropes (C54_new) are proved. The depth after Insert and Remove is not bounded by the logarithm: C54_typed_refuted, C54_waste_refuted.'),
 'C55': ('partial', 'Proved for listed instructions (C55_instructions_partial, C55_code_partial, C55_nops) and for compiled patterns without checkers (C55_compiled_partial). The operands of CheckBegin and unusual empty assertions are not printed: C55_check_refuted, C55_empty_refuted.'),
 'C56': ('partial', 'The text tells the shape with internal nodes (C56_shape), and the visible tree if there are none (C56_solid_partial). With internal nodes it depends on the history: C56_history_refuted, C56_internal_refuted.'),
 'C43': ('partial', 'Proved for every history in which the text never gets shorter (parent pointers: for every history). With shorter texts the code violates the property (C43_shrink_refuted). Handles of values that are no longer in the tree are not modelled.'),
 'C57': ('proved', 'C57_stack for any bytecode, C57_back for the program of any pattern. The bounds of an interval that the caller gives the wrong way round are not covered.'),
 'C58': ('proved', 'For the program of any pattern, whatever the table, checkers and interval.'),
 'C59': ('proved', 'That Exec reads its input only by these operations is read off the code. Ropes: made by the operations of the package, with SplitLen at least 1; streams: any sequence of reads that ends with io.EOF.'),
 'C60': ('partial', 'C60_edit: every edit works. Parses: with the restrictions of C22_history_..., of which it is a consequence; outside of them the code violates the property (C60_shrink_refuted; the other refutations of C22 carry over too).'),
 'C62': ('partial', 'C62_text, C62_single: the single edits give the same text, and C62_rope: an editor with a rope stays in a state of C60. C62_stops_partial, C62_result_partial: parses give the result of the semantics after any edits, for the patterns of C22_history_...; the refutations of C22 for other patterns carry over.'),
 'C63': ('proved', 'C63_whole: the semantics, with any checker that stays in the text. C63_exec: the machine, with the checker of WordMatch. C63_comment: on ropes of the text. That the grammar compiles is shown for the default threshold (C63_ex). The random choice of edits is not modelled.'),
 'C61': ('partial', 'C61_before_partial: what was compiled before does not matter for the labels; for the memo identifiers it does, since compiling (memo a)* for the 32768th time panics (C61_again_refuted). C61_distinct_partial, C61_apart_partial: nor do other goroutines if a goroutine got different labels, as when no two calls of NewLabel overlap. Otherwise the code violates the property (C61_race_refuted: the race makes two labels of a program equal and the compiled pattern rejects a text that it matches). C61_memo_partial, C61_memo_refuted: the same for the identifiers that Memo gives out. The increments of memoId by Compile are private to the goroutine in these theorems.'),
}
