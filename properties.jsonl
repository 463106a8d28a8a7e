{"id": "C01", "title": "Evidence behaves as a persistent finite map", "statement": "Starting from an empty evidence value and applying any sequence of extends, looking up an ability id returns the prompt tag and dispatch pointers of the most recent extend for that id (looking up an id that was never extended is a caller error and finds nothing). Extending produces a new evidence value and never changes any earlier one; every evidence value stays sorted by ability id with no duplicate id, so the binary search is always meaningful.", "quantifier": "all sequences of extends (with arbitrary ability ids, tags and pointers, branching from any earlier evidence value) and all looked-up ids", "why_tests_cant": "The correctness of the binary search depends on an invariant maintained by every insert; tests cover a handful of insertion orders only.", "anchors": ["crates/tribute-runtime/src/lib.rs: Evidence::lookup, Evidence::extend, __tribute_evidence_empty/lookup/extend"]}
{"id": "C02", "title": "Complete writes survive short writes and interrupts", "statement": "When printing through io_write, if the routine reports success then the bytes handed to the file descriptor, concatenated in order, are exactly the requested bytes (followed by one newline iff requested); if it reports failure then what was handed over is a prefix of them. It never duplicates, reorders or skips a byte, whatever mixture of short writes and EINTR the OS produces, and it succeeds whenever the OS accepts at least one byte infinitely often with no hard error.", "quantifier": "all byte strings and all schedules of OS responses (any count, zero, EINTR, other error)", "why_tests_cant": "The OS schedule is outside the test's control and unbounded.", "anchors": ["crates/tribute-runtime/src/lib.rs: write_all_with, __tribute_io_write"]}
{"id": "C03", "title": "Line input is independent of how the OS chunks the stream", "statement": "Reading lines repeatedly from standard input yields exactly the lines of the byte stream: the stream split at newline, one trailing carriage return removed from newline-terminated lines, the last unterminated line returned as is, then end of file forever. The result does not depend on how the OS splits the stream into read chunks or where it interrupts.", "quantifier": "all byte streams, all ways of splitting them into chunks of 1..8192 bytes, all interleavings of EINTR", "why_tests_cant": "There are unboundedly many chunkings and line lengths; buffer-boundary bugs only show at specific offsets.", "anchors": ["crates/tribute-runtime/src/lib.rs: StdinBuffer::read_byte, read_line_with, line_result"]}
{"id": "C04", "title": "A failed or invalid line read is classified exactly", "statement": "A read returns INVALID_ENCODING exactly when the line's bytes are not valid UTF-8, SYSTEM exactly when the OS reports a hard error before the line is complete, EOF exactly when the stream ends with no pending bytes, and LINE otherwise with exactly the line's bytes. A hard error leaves the bytes buffered after the failure point available to the next read.", "quantifier": "all byte streams, chunkings, interrupts and error positions", "why_tests_cant": "Combination of error position, buffer state and content is unbounded.", "anchors": ["crates/tribute-runtime/src/lib.rs: read_line_with, line_result, StdinBuffer::read_byte, INPUT_* tags"]}
{"id": "C05", "title": "Bytes operations agree with the mathematical byte string", "statement": "The content of concat is the concatenation of the contents, the content of a slice is the sub-list of the original content (slicing out of range aborts), range equality holds exactly when both ranges are in bounds and hold the same bytes, and the reported length equals the content length for every bytes value shorter than 2^32. Results hold for slices of slices and concatenations of slices, i.e. for every way a bytes value can be constructed.", "quantifier": "all bytes values reachable by alloc, slice and concat, all index arguments", "why_tests_cant": "Slices share buffers with offsets; tests cover a few shapes and cannot cover every nesting or the 2^32 boundary.", "anchors": ["crates/tribute-runtime/src/lib.rs: __tribute_bytes_len, __tribute_bytes_range_equal, __tribute_bytes_concat, __tribute_bytes_slice_or_panic, allocate_bytes"]}
{"id": "C06", "title": "Prompt tags handed out by one thread are distinct until wrap-around", "statement": "Any two of the first 2^32 tags requested on one thread are different; the (2^32+1)-th equals the first.", "quantifier": "all pairs of requests in any history on a thread", "why_tests_cant": "2^32 calls cannot be tested.", "anchors": ["crates/tribute-runtime/src/lib.rs: __tribute_next_tag", "crates/tribute-runtime/src/tls.rs: ThreadState::next_tag"]}
{"id": "C07", "title": "Reference counts track the number of owners until the 32-bit counter wraps", "statement": "Starting from a freshly initialised box (count 1), after any interleaving of retains and releases with more acquisitions than releases at every point, the stored count equals the number of outstanding owners as long as this number stays below 2^32; the box is freed exactly at the release which drops the last owner. Beyond 2^32 owners the counter wraps and the property fails.", "quantifier": "all interleavings of retain/release histories", "why_tests_cant": "Unbounded histories; the wrap-around boundary is unreachable for tests.", "anchors": ["crates/tribute-rc/src/lib.rs: RcBox::init, retain", "crates/tribute-passes/src/native/rc_lowering.rs: retain/release lowering"]}
{"id": "C08", "title": "Struct layout places fields without overlap and with correct alignment", "statement": "For any list of field types, the computed offsets are aligned to each field's alignment, fields appear in declaration order, do not overlap, all lie inside the reported size, the total size is a multiple of the reported alignment, which is the maximum of the field alignments, and no offset could be smaller (padding is minimal).", "quantifier": "all field lists whose layout fits in 32 bits", "why_tests_cant": "Unbounded field lists.", "anchors": ["crates/trunk-ir/src/adt_layout.rs: type_size_align, compute_struct_layout"]}
{"id": "C09", "title": "Enum layout keeps tag and payloads disjoint and tags distinct", "statement": "For any list of variants, the tag occupies the first bytes, every variant's payload fields start after the tag, satisfy the struct-layout guarantees, lie inside the enum's total size, and distinct variants have distinct tag values; looking up a variant by name returns that variant's own layout when names are distinct.", "quantifier": "all variant lists whose layout fits in 32 bits", "why_tests_cant": "Unbounded variant lists.", "anchors": ["crates/trunk-ir/src/adt_layout.rs: compute_enum_layout, find_variant_layout"]}
{"id": "C10", "title": "Dominance queries equal path dominance", "statement": "For any control-flow region, the analysis says block a dominates block b exactly when b is reachable from the entry block and every path from the entry to b passes through a; strict and immediate dominance follow; the fixpoint computation terminates.", "quantifier": "all finite control-flow graphs, all pairs of blocks", "why_tests_cant": "Quantifies over every path of every graph.", "anchors": ["crates/trunk-ir/src/dominance.rs: DominatorTree::compute, dominates"]}
{"id": "C11", "title": "Constant folding preserves machine-integer semantics", "statement": "Whenever the canonicalizer folds an integer add/sub/mul/div/rem/and/or/xor, the replacement value equals what the operation would have computed at run time with N-bit two's-complement arithmetic, for constants stored as canonical signed N-bit values.", "quantifier": "all widths 1..128, all operand values, constant or not", "why_tests_cant": "2^256 operand pairs per width.", "anchors": ["crates/trunk-ir/src/dialect/arith.rs: fold_addi, fold_subi, fold_muli, fold_divsi, fold_divui, fold_remsi, fold_remui, fold_and, fold_or, fold_xor"]}
{"id": "C12", "title": "Constant folding never removes or invents a trap", "statement": "A division or remainder which would trap at run time (zero divisor, or most-negative value divided by minus one) is never folded to a value.", "quantifier": "all widths and operand values, canonical constants", "why_tests_cant": "Boundary values exist for each width.", "anchors": ["crates/trunk-ir/src/dialect/arith.rs: fold_divsi, fold_divui, fold_remsi, fold_remui, is_signed_overflow_at_width"]}
{"id": "C13", "title": "Type interning is hash-consing", "statement": "Interning two type descriptions returns the same handle exactly when the descriptions are equal, reading a handle back returns the description interned, and interning never changes what earlier handles denote.", "quantifier": "all sequences of intern operations", "why_tests_cant": "Invariant over unbounded histories.", "anchors": ["crates/trunk-ir/src/types.rs: TypeInterner::intern, get", "PathInterner"]}
{"id": "C14", "title": "The type-alias registry stays coherent", "statement": "After any sequence of alias registrations, if the reverse direction reports name n for type t then looking up n yields t; and every type which currently has an alias name has one reported for it.", "quantifier": "all sequences of alias (re-)registrations", "why_tests_cant": "Needs overwriting sequences; invariant over histories.", "anchors": ["crates/trunk-ir/src/context.rs: register_type_alias"]}
{"id": "C15", "title": "Use lists are exact after any IR edit history", "statement": "After any sequence of the IR mutation API (create, set/push/remove operand, remove op, replace all uses, clone, ...) the recorded uses of each value are exactly the operand positions of live operations holding that value, without duplicates.", "quantifier": "all finite sequences of API calls", "why_tests_cant": "Unbounded histories; each mutation must maintain both directions.", "anchors": ["crates/trunk-ir/src/context.rs: create_op, set_op_operand, push_op_operand, remove_op_operand, remove_op, clear_operand_uses_of, replace_all_uses"]}
{"id": "C16", "title": "Replacing all uses redirects every use and nothing else", "statement": "After replacing all uses of old by new, no operand refers to old, every operand that referred to old refers to new, all other operands are unchanged, and old has no recorded uses (old different from new).", "quantifier": "all reachable IR states and value pairs", "why_tests_cant": "Quantifies over IR states.", "anchors": ["crates/trunk-ir/src/context.rs: replace_all_uses"]}
{"id": "C17", "title": "Operation placement stays consistent under edits", "statement": "After any sequence of push/insert-before/remove/detach, each operation is listed in at most one block, at most once, exactly in the block recorded as its parent; relative order of the other operations is unchanged by an edit.", "quantifier": "all finite sequences of placement edits", "why_tests_cant": "Invariant over histories.", "anchors": ["crates/trunk-ir/src/context.rs: push_op, insert_op_before, remove_op_from_block, detach_op, remove_op"]}
{"id": "C18", "title": "Cloning a region produces an isolated isomorphic copy", "statement": "Cloning a region yields a region of the same shape whose internal references all point into the clone and whose external references are unchanged.", "quantifier": "all well-formed regions (including block orders where a use is listed before the dominating definition)", "why_tests_cant": "Depends on block order and nesting; arbitrary IR.", "anchors": ["crates/trunk-ir/src/context.rs: clone_op, clone_region", "crates/trunk-ir/src/ir_mapping.rs"]}
{"id": "C19", "title": "IR walks visit exactly the right operations in order", "statement": "Walking a region visits every operation, including nested ones, exactly once and each before anything nested in it, in textual order; a Skip suppresses exactly the operation's descendants; a Break stops the walk immediately with the callback's value.", "quantifier": "all IR trees and callback behaviours", "why_tests_cant": "All tree shapes and callbacks.", "anchors": ["crates/trunk-ir/src/walk.rs: walk_region, walk_block, walk_op"]}
{"id": "C20", "title": "Call-graph SCCs and recursion detection are exact", "statement": "The SCC computation partitions the functions so that two functions are in the same component exactly when each can reach the other through calls, callees' components come before callers', and a function is reported recursive exactly when it can reach itself through at least one call.", "quantifier": "all finite call graphs", "why_tests_cant": "All graphs and visiting orders.", "anchors": ["crates/trunk-ir/src/transforms/call_graph.rs: tarjan_scc, strongconnect, recursive_functions"]}
{"id": "C21", "title": "Dead-function elimination keeps exactly what can be called", "statement": "The set of functions kept is exactly the set reachable from the entry points through references; no function that a kept function refers to is removed.", "quantifier": "all modules (including nested modules), all reference graphs", "why_tests_cant": "All graphs; nesting and naming interplay.", "anchors": ["crates/trunk-ir/src/transforms/global_dce.rs: analyze_module_region, extend_module_path, compute_reachable, filter_region"]}
{"id": "C22", "title": "Dead-code elimination preserves behaviour and removes all dead pure code", "statement": "Removing dead pure operations from a block leaves the effects and the values of every remaining operation unchanged, and afterwards no pure operation with only unused results remains.", "quantifier": "all straight-line operation lists with uses", "why_tests_cant": "All programs.", "anchors": ["crates/trunk-ir/src/transforms/dce.rs: eliminate_dead_code, sweep_block, is_dead"]}
{"id": "C23", "title": "Inlining decision and substitution preserve behaviour", "statement": "Inlining replaces calls by the callee's body with parameters replaced by arguments and the return replaced by the returned value. Every call of a function of the module then returns the same values with the same effects; the module stays valid; recursive functions are never inlined; the pass ends, and leaves no call that its configuration allows to inline.", "quantifier": "all modules, configurations, inputs and meanings of the other operations", "why_tests_cant": "All programs, all nestings and all orders of inlining.", "anchors": ["crates/trunk-ir/src/transforms/inline.rs: inline_functions_with_config, InlineCallSite, splice_callee_body_before, should_inline, op_count", "crates/trunk-ir/src/context.rs: clone_op, clone_region"]}
{"id": "C24", "title": "Lowering structured control flow preserves behaviour", "statement": "Lowering if, loop and switch to branches yields a control-flow graph which, on every input, performs the same effects in the same order and returns the same result, and diverges exactly when the structured program does.", "quantifier": "all structured programs and inputs", "why_tests_cant": "All programs, including non-terminating executions.", "anchors": ["crates/trunk-ir/src/transforms/scf_to_cf.rs: lower_scf_if, lower_scf_loop, lower_scf_switch, replace_yield_with_br, replace_continue_break", "crates/trunk-ir/src/rewrite/helpers.rs"]}
{"id": "C25", "title": "Scope validation reports exactly the out-of-scope operands", "statement": "The value-scope validator reports an operand exactly when its value is defined in neither the enclosing region nor an ancestor region inside the same function.", "quantifier": "all IR trees", "why_tests_cant": "All nestings.", "anchors": ["crates/trunk-ir/src/validation.rs: check_operands_in_region, validate_functions_in_region, collect_region_top_level"]}
{"id": "C26", "title": "Conversion-target legality follows the documented precedence and verification is exact", "statement": "For every set of legality registrations, an operation's legality follows op-specific over dialect over unknown with dynamic before static at each level; partial verification fails exactly when some visited operation is illegal, full verification exactly when some visited operation is not legal, where operations nested in recursively legal ones are not visited.", "quantifier": "all registration sets, all IR trees", "why_tests_cant": "Combinatorial registrations and trees.", "anchors": ["crates/trunk-ir/src/rewrite/conversion_target.rs: is_legal, is_recursively_legal, verify_mode"]}
{"id": "C27", "title": "Cached analyses are never stale with respect to invalidation", "statement": "A get returns the value computed at the most recent get after the last invalidation of that (analysis, target); invalidating one target leaves all others cached, and a cached value is computed at most once between invalidations.", "quantifier": "all interleavings of get/invalidate/clear", "why_tests_cant": "Invariant over histories.", "anchors": ["crates/trunk-ir/src/analysis.rs: AnalysisCache"]}
{"id": "C28", "title": "The pass manager runs passes in order and stops at the first failure", "statement": "Passes run in registration order on each target, nothing runs after a failing pass or after the target disappears, verification is run after each pass, and nested managers visit each surviving target once.", "quantifier": "all pipelines and pass behaviours", "why_tests_cant": "All pipelines and failure points.", "anchors": ["crates/trunk-ir/src/pass.rs: run_passes, TypedNested::run"]}
{"id": "C29", "title": "Distinct instantiations receive distinct mangled names", "statement": "Two different specializations (base name and type arguments) never get the same mangled name, so monomorphization never merges functions of different types.", "quantifier": "all type arguments (nominal types, functions, tuples, primitives)", "why_tests_cant": "Unbounded types; collisions are adversarial.", "anchors": ["crates/tribute-front/src/monomorphize/mangle.rs: mangle_name, write_type_mangled"]}
{"id": "C30", "title": "Effect rows behave as sets of abilities", "statement": "Adding, removing, membership and union on effect rows agree with finite-set semantics over (ability, arguments), keep the tail variable as documented and never introduce duplicates.", "quantifier": "all rows and effects", "why_tests_cant": "Unbounded rows.", "anchors": ["crates/tribute-front/src/typeck/effect_row.rs"]}
{"id": "C31", "title": "Instantiation and generalization substitute exactly the quantified variables", "statement": "Instantiating a scheme replaces bound variable i by the i-th argument everywhere and changes nothing else; generalizing abstracts each unresolved variable once, in first-occurrence order, and instantiating the generalized scheme with the original variables gives back the (resolved) type.", "quantifier": "all types and substitutions", "why_tests_cant": "Unbounded types.", "anchors": ["crates/tribute-front/src/typeck/subst.rs", "crates/tribute-front/src/typeck/solver.rs: generalize, replace_univars_with_bound"]}
{"id": "C32", "title": "Type unification is sound, most general and terminates", "statement": "When the solver accepts a set of type equations, applying the resulting substitution makes both sides of each equation equal; the substitution is a most general unifier; when it rejects, no unifier exists; and it always terminates (no cyclic substitution is ever built).", "quantifier": "all first-order type equations", "why_tests_cant": "Unbounded types and equation orders.", "anchors": ["crates/tribute-front/src/typeck/solver.rs: unify_types, bind_type_var, occurs_in, TypeSubst::apply"]}
{"id": "C33", "title": "Effect-row unification is sound", "statement": "When the solver accepts two effect rows as equal, after applying the resulting substitutions the two rows contain the same set of effects and the same tail.", "quantifier": "all rows, including several instances of one ability with different arguments", "why_tests_cant": "Unbounded rows; matching is order dependent.", "anchors": ["crates/tribute-front/src/typeck/solver.rs: unify_rows, unify_effects_as_sets, compute_effect_difference_with_unify, compute_effect_split_with_unify"]}
{"id": "C34", "title": "Typed integer attributes are range checked exactly", "statement": "Reading an integer attribute at type T returns the stored value exactly when it fits in T, an error exactly when an integer is stored that does not fit, and absent when there is no integer.", "quantifier": "all 128-bit values and all target integer types", "why_tests_cant": "2^128 values.", "anchors": ["crates/trunk-ir/src/types.rs: get_integer and typed getters"]}
{"id": "C35", "title": "Printed IR literals, types and attributes parse back unchanged", "statement": "Printing a type or attribute (strings with any characters, arbitrary bytes, symbols, integers, lists, locations, nested types) and parsing the text gives the same value back, in any following context.", "quantifier": "all attributes and types with identifier-shaped dialect/type/key names and without non-finite floats", "why_tests_cant": "All strings, byte strings and nestings; escape and delimiter interactions.", "anchors": ["crates/trunk-ir/src/printer.rs: write_attribute, write_type, write_escaped_string, write_escaped_bytes, write_symbol, write_type_alias_name", "crates/trunk-ir/src/parser/raw.rs: raw_attr_value, raw_type, string_lit, bytes_content, symbol_ref, integer_lit, is_type_alias_def"]}
{"id": "C36", "title": "Liveness used for reference counting equals path liveness", "statement": "The computed live-in set of a block contains a pointer exactly when some path from the block's start reaches a use of the pointer before its definition.", "quantifier": "all control-flow graphs", "why_tests_cant": "Quantifies over all paths.", "anchors": ["crates/tribute-passes/src/native/rc_insertion.rs: compute_use_def_sets, compute_liveness"]}
{"id": "C37", "title": "Inserted reference counting is balanced on every path", "statement": "On every execution path of a function, each owned reference is released or transferred exactly once and never used after its release.", "quantifier": "all functions and all execution paths through them", "why_tests_cant": "All paths of all control-flow graphs.", "anchors": ["crates/tribute-passes/src/native/rc_insertion.rs: insert_rc_in_function, insert_rc_in_block"]}
{"id": "C38", "title": "Removing a retain/release pair never frees an object that is still used", "statement": "Eliminating a retain and its matching release leaves every object alive at every later use on all executions.", "quantifier": "all straight-line code between the pair, with arbitrary other owners", "why_tests_cant": "All programs and aliasing patterns.", "anchors": ["crates/tribute-passes/src/native/rc_optimization.rs: eliminate_one_pair, is_barrier_for, is_proven_non_escaping_use"]}
{"id": "C39", "title": "Editor positions and byte offsets convert back and forth", "statement": "Converting a byte offset at a character boundary to an LSP position and back gives the same offset; converting a position inside a line to an offset and back gives the same position; positions past the line end clamp to the line end.", "quantifier": "all texts (any Unicode) and offsets", "why_tests_cant": "All texts; UTF-8/UTF-16/line break interplay.", "anchors": ["src/lsp/server.rs: position_from_offset, offset_from_position"]}
{"id": "C40", "title": "Incremental edits keep server text and parser edit points equal to the client's", "statement": "Applying a content change yields the old text with exactly the given range replaced, and the reported end point of the edit is the point of the end offset in the new text.", "quantifier": "all texts and edits", "why_tests_cant": "All edits.", "anchors": ["src/lsp/server.rs: apply_change, point_after_text, byte_line_col"]}
{"id": "C41", "title": "Tail-resumptive detection only accepts handlers whose continuation is resumed last", "statement": "A handler body accepted by the detector uses the continuation exactly once, as the last action before yielding its result, so replacing resume by a plain yield preserves the result.", "quantifier": "all handler bodies", "why_tests_cant": "All bodies.", "anchors": ["crates/tribute-passes/src/tail_resumptive.rs: is_tail_resumptive"]}
{"id": "C42", "title": "Cast resolution removes every resolvable cast and reports every other one", "statement": "After resolving unrealized casts, every remaining cast is reported as unresolved, every removed cast was either type-preserving or had a materialization, and uses of a removed cast refer to the converted value.", "quantifier": "all cast graphs and materializers", "why_tests_cant": "All IRs.", "anchors": ["crates/trunk-ir/src/conversion/resolve_unrealized_casts.rs: resolve_block, try_resolve_cast"]}
{"id": "C43", "title": "Reference counting reclaims exactly the unreachable objects", "statement": "For every program history in which only holders of a reference retain, release or hand over that reference, retaining and releasing never accesses freed memory, never frees an object twice or with a wrong size; an object's count is zero exactly when it has become unreachable from the references the program holds, and the memory of every unreachable object has been returned to the allocator.", "quantifier": "all histories of object creation, retain, release and access over acyclic object graphs of any size and sharing", "why_tests_cant": "Releases cascade through graphs of any depth and sharing; tests see a few shapes.", "anchors": ["crates/tribute-passes/src/native/rtti.rs: generate_release_function_for_struct, generate_release_function_for_enum", "crates/tribute-passes/src/native/rc_lowering.rs: lower_rc_in_block", "crates/trunk-ir-cranelift-backend/src/translate.rs: build_dispatching_deep_release", "crates/tribute-runtime/src/lib.rs: __tribute_dealloc"]}
{"id": "C44", "title": "Symbols agree across threads", "statement": "Symbols obtained by any number of threads, under any interleaving, are equal exactly when their texts are equal, each resolves to its text, and the threads cannot deadlock.", "quantifier": "all numbers of threads, all texts, all schedules of lock acquisition, lookup, insertion and release", "why_tests_cant": "Tests run a few schedules; the check-then-insert race needs a particular interleaving.", "anchors": ["crates/trunk-ir/src/symbol.rs: Symbol::new, Symbol::from_dynamic, Symbol::lookup"]}
{"id": "C45", "title": "Value definitions agree with result and argument lists", "statement": "After any IR edit history, a value is defined as the i-th result of an operation (i-th argument of a block) exactly when it is listed there, there is one value per declared result and argument, and asking for a value's type always succeeds.", "quantifier": "all finite sequences of IR API calls", "why_tests_cant": "Prepending arguments re-indexes existing ones; an off-by-one only shows after particular histories.", "anchors": ["crates/trunk-ir/src/context.rs: create_op, create_block, add_block_arg, prepend_block_arg, value_ty, value_def"]}
{"id": "C46", "title": "Effect checks of declarations", "statement": "A function with a closed effect annotation whose body performs an effect outside the annotation is rejected and the diagnostic names exactly those effects; the entry point is rejected exactly when it performs something other than built-in I/O; a function's calling convention is the least one that serves every effect in its row, and the most general one for open rows.", "quantifier": "all effect rows, annotations, row substitutions and ability requirement tables", "why_tests_cant": "Rows mix abilities, arguments and tails resolved during inference; tests use a handful.", "anchors": ["crates/tribute-front/src/typeck/checker/func_check.rs: check_func_decl", "crates/tribute-front/src/ast/calling_convention.rs: calling_convention_for_effect_row, calling_convention_for_function_type"]}
{"id": "C47", "title": "Qualified names", "statement": "Qualified names are the path segments joined by the separator; splitting off the last segment and joining are inverse to each other; different paths get different names; and building names leaves the shared prefix buffer unchanged.", "quantifier": "all texts, all lists of path segments, all prefixes", "why_tests_cant": "Segments and prefixes are arbitrary texts; the buffer is shared across a whole traversal.", "anchors": ["crates/tribute-ir/src/lib.rs: ModulePathExt", "crates/tribute-front/src/lib.rs: qualified_symbol, qualified_path_symbol, push_prefix"]}
{"id": "C48", "title": "The parser reads exactly the editor's text", "statement": "Feeding the parser from the rope gives it every byte of the text once and in order, and an answer is empty only at the end of the text, however the rope happens to be cut into chunks.", "quantifier": "all texts, all ways a rope can cut them into chunks, all byte offsets asked for", "why_tests_cant": "Chunk boundaries depend on the edit history; an error shows only when a read starts inside a chunk.", "anchors": ["crates/tribute-front/src/source_file.rs: parse_with_rope, chunk_from_byte"]}
{"id": "C49", "title": "Completion filters by the identifier under the cursor", "statement": "The text used to filter completions is the longest run of identifier characters that ends at the cursor.", "quantifier": "all texts, all cursor positions at character boundaries, all classifications of characters", "why_tests_cant": "Characters have one to four bytes; walking back by bytes goes wrong only for some of them.", "anchors": ["src/lsp/server.rs: extract_completion_prefix"]}
{"id": "C50", "title": "Use-list validation accepts exactly the closed modules", "statement": "The use-list validator reports an operand exactly when the use list of its value lacks it, and a use-list entry of a value the module reads or defines exactly when it is not an operand of an operation in the module. So a module built through the IR API passes exactly when nothing in it has been disposed of and nobody outside reads its values.", "quantifier": "all histories of IR operations, all regions taken as module body", "why_tests_cant": "It is a statement about every nesting and every stray reader; a validator that skips a region or a kind of value still passes its tests.", "anchors": ["crates/trunk-ir/src/validation.rs: validate_use_chains, collect_block_values"]}
{"id": "C51", "title": "Printed operations and modules read back", "statement": "Parsing the printed text of an operation or module gives an operation with the same name, results, operands, attributes, result types, successors and nested regions, blocks and operations, and with aliases where types were abbreviated; parsing it does not touch what follows.", "quantifier": "all nestings of operations, regions and blocks, all names, attributes, types and alias maps, all indentations and following texts", "why_tests_cant": "Whether a brace starts an attribute dictionary or a region, and whether a value is a result or an operand, depends on combinations of empty and non-empty parts; tests print a few modules.", "anchors": ["crates/trunk-ir/src/printer.rs: print_operation, print_generic_op, print_region, print_module_op", "crates/trunk-ir/src/dialect/func.rs: print_func, parse_func", "crates/trunk-ir/src/parser/raw.rs: raw_operation, raw_block, raw_region, type_alias_def"]}
{"id": "C52", "title": "Type aliases in printed modules", "statement": "The alias definitions at the head of a printed module come in an order in which each resolves to its type, the names made up are fresh, and afterwards every type printed with the aliases resolves to exactly that type. Which aliases are made up depends on the module alone, not on the iteration order of hash maps.", "quantifier": "all alias registries, all types (nested to any depth, in parameters and attributes), all use counts, all iteration orders", "why_tests_cant": "Dependencies between aliases, name clashes and hash orders combine freely; tests print a few modules in one run.", "anchors": ["crates/trunk-ir/src/printer.rs: generate_auto_aliases, choose_alias_name, topological_sort_aliases, collect_type_deps, print_module_op", "crates/trunk-ir/src/parser/builder.rs: build_type, build_attribute, build_region_inner"]}
{"id": "C53", "title": "Modules survive printing, parsing and building", "statement": "Printing a module and parsing the text gives a module with the same operations, attributes, types and nesting, in which every operand and successor refers to the counterpart of what it referred to before; printing that module gives the same text again.", "quantifier": "all modules of operations and functions with any nesting of regions and blocks, all choices of value and block references, all alias registries, any state of the arena that is built into", "why_tests_cant": "Numbers are given in the order of the text and names are resolved by scopes, so a wrong scope or reset shows only for particular combinations of nesting, branches and uses; tests print a few modules.", "anchors": ["crates/trunk-ir/src/printer.rs: print_module, PrintState, print_generic_op, print_region", "crates/trunk-ir/src/dialect/func.rs: print_func", "crates/trunk-ir/src/parser/builder.rs: parse_module, build_operation, build_region_inner, create_block"]}
{"id": "C54", "title": "Case expressions run the first matching arm", "statement": "The code generated for a case expression evaluates, in order, the guards of the arms whose patterns match the scrutinee until one holds, and then exactly that arm, with the variables of its pattern bound to the parts of the value they stand for; in continuation-passing code the value of the arm goes to the continuation, once.", "quantifier": "all patterns of any nesting (literals, variants, tuples, lists, rest and as patterns), all lists of arms with and without guards, all values of the scrutinee's type, all meanings of the expressions, all enclosing scopes", "why_tests_cant": "Nested patterns, guards and fall-through combine without bound, and a missing test shows only for values that the examples do not have; tests run a few programs.", "anchors": ["crates/tribute-front/src/ast_to_ir/lower/case.rs: emit_pattern_check, emit_logical_pattern_check, emit_literal_check, emit_list_pattern_suffix, bind_pattern_fields, bind_logical_pattern_fields, lower_case_chain, lower_case_comp_chain", "crates/tribute-front/src/ast_to_ir/lower/logical.rs: lower_case_chain", "crates/tribute-front/src/astgen/patterns.rs: lower_constructor_fields"]}
{"id": "C55", "title": "Exhaustiveness of case expressions", "statement": "When the type checker accepts the arms of a case expression as exhaustive, every value of the scrutinee's type is matched by an arm without a guard; when the arms match every value, the checker accepts them.", "quantifier": "all types of scrutinees, all enum declarations, all lists of arms and nested patterns, all values", "why_tests_cant": "A hole is a value no test happens to use; whether lengths, variants and Booleans are covered is a statement about all values.", "anchors": ["crates/tribute-front/src/typeck/checker/expr.rs: check_exhaustiveness, is_catch_all_pattern, list_patterns_are_exhaustive, collect_covered_variants, collect_bool_coverage"]}
{"id": "C56", "title": "Names refer to the binding in scope", "statement": "After name resolution every use of a local variable refers to the innermost enclosing binding of that name; names without such a binding refer to the item of the module, the file, an import or an operation of the function's declared effects, in that order, or are reported as not found; different bindings have different numbers, and only names that were not found are reported.", "quantifier": "all programs: any nesting of blocks, lambdas, case arms, handlers and modules, all shadowing, all environments, all hash orders", "why_tests_cant": "Shadowing, pattern bindings and handler scopes combine without bound; a leaked or missing scope shows only when a later use happens to have the same name.", "anchors": ["crates/tribute-front/src/resolve/resolver.rs: Resolver, resolve_name, resolve_expr, resolve_pattern_with_bindings, resolve_handler_arm, bind_local, inject_ability_operations", "crates/tribute-front/src/resolve/mod.rs: resolve_with_env"]}
{"id": "C57", "title": "Declared items are found under their paths", "statement": "Every item a file declares is found under its full path in every function and under its own name in its own module; nothing else is found except builtin items, modules and what the prelude adds where the file has nothing; use gives an item and its members a second name; the result does not depend on the order in which hash tables are traversed.", "quantifier": "all files with any nesting of modules, enums, structs and abilities, all preludes, all sets of imports, all hash orders", "why_tests_cant": "Paths combine prefixes of any depth, later declarations can overwrite earlier ones, and hash orders change from run to run; tests resolve a few files in one order each.", "anchors": ["crates/tribute-front/src/resolve/mod.rs: build_env, collect_definition, inject_builtin_bindings, resolve_use_imports", "crates/tribute-front/src/resolve/env.rs: ModuleEnv, merge, lookup, lookup_qualified"]}
{"id": "C58", "title": "Generic functions are specialized for exactly the instances used", "statement": "After specialization the program consists of the source declarations and one copy of a generic function for each instance that is reachable from the program, with the type parameters replaced and no other change; each copy's metadata is that of the source under the replacement; every call at concrete type arguments refers to the copy for those arguments; no call of a generic function at concrete arguments is left; the result does not depend on the order in which hash tables are traversed.", "quantifier": "all type-checked programs with any nesting of expressions, any chain of generic functions calling each other, all types, all hash orders", "why_tests_cant": "Instances arise through copies of copies to any depth, and hash orders change from run to run; tests specialize a few functions once.", "anchors": ["crates/tribute-front/src/monomorphize/mod.rs: monomorphize_functions, specialize_metadata, build_rewrite_map", "crates/tribute-front/src/monomorphize/collect.rs: collect_instantiations, extract_type_args", "crates/tribute-front/src/monomorphize/specialize.rs: specialize_func_decl, generate_specializations, substitute_expr, type_args_variant", "crates/tribute-front/src/monomorphize/rewrite.rs: rewrite_module"]}
{"id": "C59", "title": "Method calls reach the method of the receiver's type", "statement": "A method call or field access x.m(args) becomes the call of the only declared function or field accessor named m whose first parameter has the type constructor of x, under its full path and with x as first argument, and is left and reported otherwise; nothing else of the program changes; a second run changes nothing; which methods exist is determined by the declarations of the module and its imports alone.", "quantifier": "all programs with any nesting of expressions and modules, all lists of imports, all annotations", "why_tests_cant": "Which method a name means depends on all declarations of all modules and on types found through nested calls; tests resolve a few calls with a handful of declarations.", "anchors": ["crates/tribute-front/src/tdnr/resolver.rs: TdnrResolver, index_decls, build_func_type, lookup_type_identity, get_expr_type, resolve_method_call, lookup_method", "crates/tribute-front/src/typeck/context.rs: MethodEntry, receiver_type_matches", "src/pipeline.rs: report_unresolved_methods"]}
{"id": "C60", "title": "Literals denote the values that the language reference gives them", "statement": "A number literal denotes the number its digits write in its base, with or without underscores, and is rejected exactly if it does not fit in 64 bits; a text, bytes or rune literal denotes the characters and escapes between its delimiters, a raw literal its body with any number of hashes; every text and every sequence of bytes can be written; a literal in a pattern denotes what the same literal denotes in an expression.", "quantifier": "all literals of the grammar: any number of digits, any sequence of characters and escapes, any number of hashes", "why_tests_cant": "The literals and their escapes combine without bound and the values at the limits of the types are many; tests try a few literals.", "anchors": ["crates/tribute-front/src/astgen/expressions.rs: parse_nat_literal, parse_int_literal, parse_string_literal, parse_bytes_literal, process_escape_sequences, parse_rune_literal", "crates/tribute-front/src/astgen/patterns.rs: parse_int_literal, unescape_string, parse_string_literal", "new-plans/syntax.md"]}
{"id": "C61", "title": "Integers and their decimal text convert into each other exactly", "statement": "Int::parse accepts exactly an optional sign followed by decimal digits, returns the number written if it fits in 32 bits, OutOfRange if it does not and InvalidSyntax for every other text; no operation of the parser overflows. Int::to_string returns the one canonical text of every integer, including the least one, and parsing that text returns the integer.", "quantifier": "all strings of any shape up to 2^31 bytes, all 32-bit integers, both targets", "why_tests_cant": "There are unboundedly many texts and 2^32 integers; tests parse and format a handful around the boundaries.", "anchors": ["lib/std/prelude.trb: Int::parse, Int::parse_digits, Int::decimal_step_overflows, Int::to_string, Int::format_positive, Int::format_negative", "new-plans/numeric-types.md"]}
{"id": "C62", "title": "Strings are equal exactly when their texts are, whatever their shape", "statement": "The length of a string is the length of its text; flattening gives the text; two strings compare equal exactly if their texts are equal, however they were joined, and the comparison ends after at most as many steps as both strings have nodes, without reading outside of their bytes.", "quantifier": "all pairs of strings built by any sequence of joins of byte sequences of up to 2^32 - 1 bytes, both targets", "why_tests_cant": "Rope shapes and the offsets at which leaves overlap are unbounded; tests compare a few small ropes.", "anchors": ["lib/std/prelude.trb: String::len, String::concat, String::to_bytes, String::next_cursor, String::cursors_equal, String::(==), String::(!=)", "crates/tribute-runtime/src/lib.rs: __tribute_bytes_range_equal", "crates/tribute-passes/src/wasm/intrinsic_to_wasm.rs: BytesRangeEqualPattern", "new-plans/string.md"]}
{"id": "C63", "title": "Reading and slicing bytes respects their bounds", "statement": "Bytes::get returns the byte at an index within the length and None past it; get_or_panic stops the program past the end; Bytes::slice returns the part between its bounds clamped to the length and never stops the program; slice_or_panic stops it exactly if the bounds are wrong.", "quantifier": "all byte sequences, indices and bounds, both targets", "why_tests_cant": "The values of bytes and indices are many; the existing test reads one ASCII byte in range.", "anchors": ["lib/std/prelude.trb: Bytes::get, Bytes::get_or_panic, Bytes::slice, Bytes::slice_or_panic", "crates/tribute-passes/src/native/intrinsic_to_native.rs: BytesGetOrPanicPattern", "crates/trunk-ir-cranelift-backend/src/passes/arith_to_clif.rs: ArithConversionPattern", "crates/tribute-passes/src/wasm/intrinsic_to_wasm.rs: BytesGetOrPanicPattern"]}
{"id": "C64", "title": "Operators on numbers compute what they say on both targets", "statement": "Each arithmetic operator and comparison that the standard library declares on Int, Nat and Float, compiled to native code or to Wasm, gives the value of that operator: two's complement arithmetic of 32 bits for Int and Nat (signed and unsigned), division toward zero, orders that respect the sign, float comparisons that are false for NaN except inequality; the program stops exactly for a zero divisor or an unrepresentable quotient, so both targets agree.", "quantifier": "all operators, all operands of the three number types, both targets, any float arithmetic", "why_tests_cant": "There are 32 operators and 2^64 pairs of operands; an unsigned comparison compiled as a signed one differs only when the top bit is set.", "anchors": ["lib/std/prelude.trb: operators of Int, Nat, Float", "crates/tribute-passes/src/intrinsic_to_arith.rs", "crates/trunk-ir-cranelift-backend/src/passes/arith_to_clif.rs", "crates/trunk-ir-wasm-backend/src/passes/arith_to_wasm.rs"]}
{"id": "C65", "title": "A number that passes through a value of unknown type arrives unchanged", "statement": "An Int, Nat, Bool or Float that is passed where the type is not known (a generic argument, a field of a generic type, a resumption) and then used at its own type again is the same value; the box has one reference and the number of its type in its header, and making it changes no memory outside of the block.", "quantifier": "all values of the four types, all states of memory, all addresses the allocator may return, both targets", "why_tests_cant": "Boxes lose only certain bits, so that small numbers always survive; tests use small numbers.", "anchors": ["crates/tribute-passes/src/type_converter.rs: generic_type_converter", "crates/tribute-passes/src/wasm/tribute_rt_to_wasm.rs", "crates/tribute-passes/src/native/tribute_rt_to_clif.rs: box_value"]}
{"id": "C66", "title": "Compiled effect handlers give the result the language reference gives", "statement": "Running a program with handlers gives the value of the reference semantics: an operation is answered by the nearest active handler of its ability, resume continues the interrupted computation under that handler, an arm that does not resume gives the result of the handle, a handled computation that returns goes through the completion arm; it runs forever exactly if the reference does, and never uses a value of one shape as another. The documented run_state computes what a state does for every sequence of reads and writes.", "quantifier": "all programs of functions, closures, handlers and operations, any nesting and recursion, runs of any length, both targets", "why_tests_cant": "Control passes between performing code, arms and resumptions in unboundedly many orders; tests run a dozen programs.", "anchors": ["crates/tribute-front/src/ast_to_ir/lower/handle.rs", "crates/tribute-front/src/ast_to_ir/lower/control.rs: resume_into_current", "crates/tribute-front/src/ast_to_ir/lower/expr.rs: lower_comp, evaluation_control_class, build_cps_continuation", "crates/tribute-passes/src/resolve_evidence.rs", "crates/tribute-passes/src/lower_handle_dispatch.rs", "crates/tribute-passes/src/native/evidence.rs", "new-plans/abilities.md", "new-plans/cps-effects.md"]}
{"id": "C67", "title": "A borrowed parameter is never kept, and caller and callee agree about counts", "statement": "If the native compiler decides that a function only borrows a parameter, then in no execution of that function does it, or anything it calls, return the reference, store it, pass it to a block argument, closure, tail call or foreign function. The decision does not depend on hash order and is as permissive as this rule allows. For every call, the caller hands over a count on an argument exactly when the callee takes one.", "quantifier": "every module, every order of its functions, every call and every execution path through any depth of calls", "why_tests_cant": "A wrong decision corrupts reference counts only in programs in which a certain chain of calls passes the reference on; the analysis is a fixed point over the whole module computed in hash order.", "anchors": ["crates/tribute-passes/src/native/ownership_summary.rs: compute_and_attach, value_is_borrowed, classify_borrowed_use, collect_call_contracts, action_for_entry"]}
{"id": "C68", "title": "Preparing a function for continuation-passing code keeps its meaning and evaluation order", "statement": "Before a function with effects is compiled, nested expressions are flattened into a straight line of steps on variables. The flattened code does the same as the source in the same order: callee before arguments, arguments from left to right, a spread before fields, the right operand of && and || only if needed, guards only after their pattern matched, nothing twice, nothing lost, no variable captured. Flattening always reaches the flat form and changes nothing when run again. The same order holds for functions compiled directly.", "quantifier": "every expression, every nesting, every behaviour of the called functions, operations and handlers", "why_tests_cant": "Order and capture errors need particular nestings of effectful expressions; tests check a few shapes of the output.", "anchors": ["crates/tribute-front/src/ast_to_ir/normalize.rs: normalize_for_cps, validate_normal_form", "crates/tribute-front/src/ast_to_ir/lower/expr.rs: lower_value_impl", "crates/tribute-front/src/ast_to_ir/context.rs: next_local_id"]}
{"id": "C69", "title": "Compiling lambdas away keeps lexical scope, results and effects", "statement": "A lambda called anywhere, any number of times, sees the variables of the place where it was made, with the values they had there, whatever the caller has. After the compiler has turned lambdas into plain functions with an environment, every program gives the same result with the same effects as before; no lambda or closure call is left over; each new function has its own name and no existing function is lost or replaced; and the conversion ends for any nesting of lambdas.", "quantifier": "every well-scoped program, nesting, calling convention, call depth and behaviour of primitive operations", "why_tests_cant": "Errors need particular combinations of nesting, captured variables, conventions and hidden arguments; tests compare the printed code of a few lambdas.", "anchors": ["crates/tribute-passes/src/lower_closure_lambda.rs: lower_closure_lambda, build_lifted_body, LambdaNamer", "crates/tribute-passes/src/closure_lower.rs: LowerClosureCallArena, LowerClosureNewArena", "crates/tribute-core/src/calling_convention.rs", "crates/tribute-core/src/callable_abi.rs: interpose_environment", "crates/tribute-front/src/ast_to_ir/lower/lambda.rs"]}
{"id": "C70", "title": "Lambdas, continuations and handlers take along exactly the variables they use", "statement": "A lambda, the rest of a computation after an effect, the body of a handler and its arms keep exactly those variables of their surroundings that they use, with the values these have in the innermost scope, in an order that does not depend on hash maps; parameters and variables bound inside are not taken along. Run with only these, they behave as with everything in scope. Leaving a scope restores the bindings from before.", "quantifier": "every expression and nesting, every stack of scopes, every iteration order of the hash maps, every meaning of values and effects", "why_tests_cant": "A forgotten capture shows only for a variable used in one particular position, such as a guard, a spread, a nested lambda or a resume.", "anchors": ["crates/tribute-front/src/ast_to_ir/lower/lambda.rs: collect_free_vars, analyze_captures, analyze_continuation_captures", "crates/tribute-front/src/ast_to_ir/context.rs: bind, lookup, all_bindings, enter_scope, exit_scope", "crates/tribute-front/src/ast_to_ir/lower/expr.rs: build_cps_continuation", "crates/tribute-front/src/ast_to_ir/lower/handle.rs: build_cps_body, build_handler_dispatch_closure", "crates/tribute-front/src/ast_to_ir/lower/case.rs: build_guard_continuation"]}
{"id": "C71", "title": "Programs that pass the type checker do not go wrong", "statement": "If the type checker accepts a program, then running any of its functions on arguments of the declared types never applies something that is not a function, never branches on something that is not a Bool, never calls with a wrong number of arguments and never uses a variable or field that is not there; what it returns has the type the signature says. A signature says the same to callers before and after the function's definition, for every choice of its type parameters.", "quantifier": "every program of functions, lambdas, let, case, tuples, lists and constructors, every input and every length of the run", "why_tests_cant": "Type soundness is about all accepted programs; a gap shows only in a program that combines the right pattern, generalization and order of definitions.", "anchors": ["crates/tribute-front/src/typeck/checker/expr.rs: infer_expr_type_with_ctx, check_expr_with_ctx, infer_pattern_type_with_ctx, bind_pattern_vars_with_ctx, generalize_and_bind_pattern_with_ctx", "crates/tribute-front/src/typeck/checker/func_check.rs: check_func_decl", "crates/tribute-front/src/typeck/func_context.rs: lookup_local_reference, instantiate_scheme", "crates/tribute-front/src/typeck/solver.rs"]}
{"id": "C72", "title": "Structured control flow becomes valid WebAssembly that does the same", "statement": "A function of conditionals, loops and other operations is compiled to WebAssembly code that the validator accepts: the stack has the declared shape at every end, branches carry what their label wants, and locals are used with their declared types. Running the code on any arguments gives the results, effects, traps and endless loops of the operations it was made from. Distinct values are kept in distinct locals.", "quantifier": "every function, arguments, meaning of the plain operations, nesting of conditionals and loops, and number of rounds", "why_tests_cant": "Label depths, missing results and reused locals only show in particular nestings; sample programs exercise a handful of them.", "anchors": ["crates/trunk-ir-wasm-backend/src/passes/scf_to_wasm.rs: ScfIfPattern, ScfLoopPattern, ScfYieldPattern, ScfContinuePattern, ScfBreakPattern", "crates/trunk-ir-wasm-backend/src/emit.rs: emit_function, assign_locals_in_region, emit_region_ops_nested, region_result_value, set_result_local, compress_locals", "crates/trunk-ir-wasm-backend/src/emit/handlers/control_flow_handlers.rs: handle_if, handle_block, handle_loop, handle_br"]}
{"id": "C73", "title": "Editor requests about a name concern that name", "statement": "Going to the definition of a reference leads to the declaration of what it refers to. Finding references lists exactly the references to the symbol under the cursor. Renaming replaces every occurrence of the symbol under the cursor by the new name and changes nothing else, only for names that are identifiers and no keywords, and without making it the same name as another symbol in scope.", "quantifier": "every source file, symbol, cursor position and new name", "why_tests_cant": "Which entry is innermost and which names collide depends on nesting and shadowing; unit tests ask for a few positions in small files.", "anchors": ["src/lsp/definition_index.rs: AstDefinitionIndex, DefinitionCollector, validate_identifier", "src/lsp/server.rs: rename, prepare_rename, find_references, goto_definition"]}
{"id": "C74", "title": "On WebAssembly an operation reaches the newest handler of its ability", "statement": "The evidence functions that the compiler generates for the WebAssembly target behave like the native ones: installing a handler always succeeds and leaves evidence held by others unchanged; looking up an ability gives the newest installed handler for it and traps only if there is none; a handler of another ability is never given.", "quantifier": "every history of installed handlers, every ability identifier and every evidence array reachable by installing handlers", "why_tests_cant": "Which marker a search finds depends on the number of handlers, the order of hashed identifiers and the nesting of the generated loop; the repository's tests only compile the functions and never run them.", "anchors": ["crates/tribute-passes/src/wasm/evidence_to_wasm.rs: generate_evidence_lookup_function, build_lookup_loop_body, generate_evidence_extend_function, build_extend_search_loop", "crates/trunk-ir-wasm-backend/src/emit.rs: assign_locals_in_region, emit_function"]}
{"id": "C75", "title": "A dead object gives up what it kept", "statement": "When the last reference to a struct or enum value goes away in native code, its release function gives up exactly the references that were kept when the value was built, each once, touches no other field, and frees exactly as many bytes as were allocated. Different types have different release functions.", "quantifier": "every declared type, variant, list of field values and previous content of the memory", "why_tests_cant": "Leaks and double frees depend on which combination of field types, null fields and variants occurs; the repository's tests look at the shape of the generated code for pointer fields only.", "anchors": ["crates/tribute-passes/src/native/rtti.rs: generate_rtti, generate_release_function_for_struct, generate_release_function_for_enum, RttiMap", "crates/tribute-passes/src/native/adt_rc_header.rs: StructNewPattern, VariantNewPattern", "crates/tribute-passes/src/native/type_converter.rs: native_type_converter", "crates/tribute-passes/src/native/rc_insertion.rs: is_anyref_type", "crates/tribute-front/src/ast_to_ir/lower/mod.rs: convert_annotation_to_ir_type"]}
{"id": "C76", "title": "Printing on WebAssembly puts out the whole text", "statement": "When a WebAssembly program prints a byte string, with or without a newline, the bytes that reach standard output are a beginning of exactly that text; short writes and interrupted calls lose and repeat nothing, the memory is grown as needed, nothing is put out if there is not enough memory, and the output is the same as that of the native program.", "quantifier": "every byte array, range in it, newline flag, memory size, growth policy of the engine and sequence of answers of the host", "why_tests_cant": "A host in a test takes everything at once; lost or repeated bytes need short writes, interrupts and failures at particular positions, texts at page boundaries and memories that must grow.", "anchors": ["crates/tribute-passes/src/wasm/io.rs: IoAnalysis, build_write_helper, ensure_memory, copy_loop, write_loop", "crates/trunk-ir-wasm-backend/src/emit.rs: emit_region_ops_nested", "crates/trunk-ir-wasm-backend/src/emit/handlers/control_flow_handlers.rs: handle_loop", "crates/tribute-runtime/src/lib.rs: __tribute_io_write"]}
{"id": "C77", "title": "An operation reaches the handler of its own ability and the arm of its own name", "statement": "At run time abilities and operations are numbers. Performing an operation of an ability at given type arguments reaches the newest handler of that ability at those arguments, never one of another ability or of the same ability at other arguments, and within it the arm of that operation.", "quantifier": "every hash function, every set of ability and operation names, type arguments of any depth, every nesting of handlers, every list of arms", "why_tests_cant": "The numbers are hashes; that two of them are equal shows only for particular names or type arguments, which no finite set of tests covers.", "anchors": ["crates/tribute-ir/src/dialect/ability.rs: compute_op_idx, compute_ability_id, hash_type, ability_name", "crates/tribute-front/src/ast_to_ir/context.rs: ability_ref_type", "crates/tribute-front/src/ast_to_ir/lower/expr.rs: AbilityOp", "crates/tribute-front/src/ast_to_ir/lower/handle.rs: lower_ability_fn_call, extract_ability_ref_and_op_name, build_tr_dispatch_chain", "crates/tribute-front/src/ast_to_ir/lower/logical.rs", "crates/tribute-runtime/src/lib.rs: Evidence"]}
{"id": "C78", "title": "String and bytes literals keep their text on both targets", "statement": "Evaluating a string or bytes literal anywhere in a program gives a value with exactly the bytes of the literal, on the native target and on WebAssembly, whatever other literals the program has and however deep the literal is nested; equal texts are stored once. If that is not possible the program is refused.", "quantifier": "every module with literals of any text at any depth, every set of functions, every placement of data, functions and new blocks in memory", "why_tests_cant": "Literals share storage by content and are found again by name or index; which literal gets which storage depends on all others, and names can clash with those of the program.", "anchors": ["crates/tribute-passes/src/native/const_to_native.rs: ConstCollector, analyze_consts, lower, emit_bytes_alloc", "crates/tribute-passes/src/wasm/const_to_wasm.rs: ConstCollector, analyze_consts, validate_for_wasm, lower", "crates/tribute-passes/src/wasm/lower.rs: append_data_ops", "crates/trunk-ir-wasm-backend/src/emit/handlers/misc_handlers.rs: handle_bytes_from_data", "crates/trunk-ir-cranelift-backend/src/translate.rs: emit_module_impl", "crates/trunk-ir-cranelift-backend/src/function.rs: clif::SymbolAddr"]}
{"id": "C79", "title": "Lists work the same on the native target", "statement": "A program that builds and takes apart lists does on the native target what it does by the meaning of lists: it returns the value that stands for the same list or number, it stops when the head or the tail of an empty list is taken, it goes on for ever if the source does, and no operation on lists is left for later passes.", "quantifier": "every module with lists at any place and depth of its control flow, every function, every argument, runs of any length", "why_tests_cant": "Each use of head or tail splits a block in four, renames a value everywhere and moves the rest of the block; what one use does to the others depends on all blocks of the module.", "anchors": ["crates/tribute-passes/src/native/list.rs: lower, lower_observations, lower_observation, EmptyPattern, PrependPattern, IsEmptyPattern", "crates/trunk-ir/src/rewrite/helpers.rs: split_block", "crates/trunk-ir/src/walk.rs: walk_op"]}
{"id": "C80", "title": "The rewrite engine finishes its work and conversions report what is left", "statement": "Applying rewrite patterns to a module or function goes on until no pattern has anything left to do at any operation the target does not call legal. Patterns that make progress finish, legal code is not touched, no use of a replaced value is left, and a conversion reports success exactly if no operation is left that its mode rejects.", "quantifier": "every list of patterns, every conversion target, every limit of iterations, every tree of operations with regions of any depth", "why_tests_cant": "Whether a set of patterns is worked off depends on the order and nesting of all operations and on what the patterns produce; tests run single patterns on short blocks.", "anchors": ["crates/trunk-ir/src/rewrite/applicator.rs: apply_partial, apply_partial_conversion, apply_full_conversion, run_one_iteration, visit_region, visit_block", "crates/trunk-ir/src/rewrite/rewriter.rs: has_mutations, apply_mutations", "crates/trunk-ir/src/rewrite/conversion_target.rs: verify_mode, is_recursively_legal"]}
{"id": "C81", "title": "Hovering shows the type of the expression under the cursor", "statement": "Hovering over a position in the editor shows the type of the innermost expression that covers the position, with the range of that expression, and shows nothing outside of expressions.", "quantifier": "every file of functions with expressions of any depth and size, every position", "why_tests_cant": "Which entry is shown depends on all spans of the file and on which kinds of expressions have entries; tests look at single positions.", "anchors": ["src/lsp/type_index.rs: AstTypeIndex::build, type_at, TypeCollector", "src/lsp/server.rs: hover", "crates/tribute-front/src/ast/span_map.rs: get_or_default"]}
{"id": "C82", "title": "Different types are shown differently in the editor", "statement": "The text shown for a type on hovering and in diagnostics stands for that type only: two different types never have the same text.", "quantifier": "every pair of types of any depth, with any names, tuples, functions and effects", "why_tests_cant": "The text is put together from the texts of the parts; whether two of an infinite set of types collide is a matter of the whole grammar.", "anchors": ["src/lsp/type_index.rs: print_ast_type", "crates/tribute-front/src/ast/types.rs: primitive_name"]}
{"id": "C83", "title": "Turning the list construction intrinsic into list operations keeps what a program does", "statement": "After the pass that lowers the prelude's list construction, every function does what it did before: calls of the intrinsic and of its specializations build the same list, and ordinary functions whose name looks the same are called as before.", "quantifier": "every program, with any functions, specializations and nested code, all arguments and any depth of calls", "why_tests_cant": "Which calls are lowered depends on all declarations of the program together and on the spelling of names; tests cover four small modules.", "anchors": ["crates/tribute-passes/src/list_intrinsics.rs: LowerListIntrinsics, PrependCallPattern, PrependDeclarationPattern", "lib/std/prelude.trb: List::prepend"]}
{"id": "C84", "title": "Signature help is about the call around the cursor and the parameter at the cursor", "statement": "While the cursor is in the arguments of a call, the editor is given the signature of the function called by the innermost call around the cursor, with the parameter marked that the cursor is at; outside of calls nothing is shown.", "quantifier": "every syntax tree, with calls nested in any way, and every position of the cursor", "why_tests_cant": "The one test accepts an empty answer, and positions in nested calls, at commas and at the ends of arguments are unlimited.", "anchors": ["src/lsp/server.rs: signature_help, find_enclosing_call, extract_call_info, count_commas_before", "crates/tribute-front/src/astgen/expressions.rs: lower_call_expr"]}
{"id": "C85", "title": "Diagnostics are shown in a fixed order", "statement": "All diagnostics of a compilation are shown, ordered by phase, place and text, and the order in which the compiler came across them makes no difference to what is shown.", "quantifier": "every list of diagnostics, of any phases, spans, texts, severities, labels and notes, and every order of finding them", "why_tests_cant": "Whether the outcome is the same for every order of finding is a claim about all permutations of all lists; tests sort a few diagnostics.", "anchors": ["src/pipeline.rs: compare_diagnostics, compile_with_diagnostics", "src/diagnostics.rs: report_diagnostics"]}
