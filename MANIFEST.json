{
 "claims": [
  {
   "property": "C01",
   "status": "proved",
   "theorems": [
    "evidence_lookup_finds_newest",
    "evidence_always_sorted",
    "evidence_persistent"
   ],
   "note": "Lookup of an absent id is undefined behaviour in the code (unreachable_unchecked) and None in the model."
  },
  {
   "property": "C02",
   "status": "partial",
   "theorems": [
    "write_all_delivers_prefix",
    "write_all_completes",
    "io_write_exact",
    "io_write_completes",
    "io_write_prefix_without_newline",
    "io_write_prefix_refuted",
    "print_bytes_loses_bytes_refuted"
   ],
   "note": "Proved for each raw write and for successful prints. Refuted in two corners: a failed text write is ignored and the newline still emitted; print_bytes loses bytes after a failure."
  },
  {
   "property": "C03",
   "status": "proved",
   "theorems": [
    "read_lines_are_stream_lines",
    "every_stream_has_lines",
    "every_line_strips"
   ],
   "note": "UTF-8 validity is an oracle argument."
  },
  {
   "property": "C04",
   "status": "proved",
   "theorems": [
    "read_line_classified",
    "read_line_blocks_iff"
   ],
   "note": "On a hard read error the bytes of the partial line already read are dropped."
  },
  {
   "property": "C05",
   "status": "proved",
   "theorems": [
    "bytes_refine_lists",
    "bytes_len_is_content_length",
    "bytes_range_equal_spec",
    "slices_keep_original_alive"
   ],
   "note": "The u64-to-u32 length cast is modelled, so the length law is modulo 2^32."
  },
  {
   "property": "C06",
   "status": "proved",
   "theorems": [
    "tags_distinct",
    "tag_equal_iff"
   ],
   "note": ""
  },
  {
   "property": "C07",
   "status": "proved",
   "theorems": [
    "rc_counts_owners",
    "rc_free_is_last",
    "rc_wraparound_refuted"
   ],
   "note": "The last theorem exhibits the failure beyond the 32-bit bound that the property itself names."
  },
  {
   "property": "C43",
   "status": "partial",
   "theorems": [
    "deep_release_exact",
    "leaf_in_field_leaks_refuted"
   ],
   "note": "Safety and exact reclamation proved for structs and enums; memory of leaf objects (Bytes, boxed numbers) whose last reference is a field is never returned (refuted)."
  },
  {
   "property": "C08",
   "status": "proved",
   "theorems": [
    "struct_layout_correct",
    "scalar_storage"
   ],
   "note": ""
  },
  {
   "property": "C09",
   "status": "proved",
   "theorems": [
    "enum_layout_correct",
    "enum_tags_distinct",
    "enum_lookup_by_name"
   ],
   "note": ""
  },
  {
   "property": "C10",
   "status": "proved",
   "theorems": [
    "dominance_exact",
    "dominance_terminates",
    "predecessors_exact"
   ],
   "note": "Fuel models the two while loops; termination is a theorem."
  },
  {
   "property": "C11",
   "status": "partial",
   "theorems": [
    "fold_sound",
    "fold_complete",
    "fold_canonical",
    "width_of_name",
    "noncanonical_division_refuted",
    "bool_payload_refuted",
    "plus_width_refuted"
   ],
   "note": "Holds at every width for all ten ops; signed division/remainder needs payloads canonical at the width and is refuted without. Booleans fold to payload -1."
  },
  {
   "property": "C12",
   "status": "partial",
   "theorems": [
    "fold_keeps_traps",
    "noncanonical_trap_refuted"
   ],
   "note": "Unconditional for unsigned division; signed division needs canonical payloads, refuted without."
  },
  {
   "property": "C13",
   "status": "proved",
   "theorems": [
    "interning_is_hash_consing"
   ],
   "note": "For any key type with decidable equality; covers type and path interners."
  },
  {
   "property": "C14",
   "status": "partial",
   "theorems": [
    "alias_by_name_is_last",
    "alias_reverse_sound",
    "alias_list_exact",
    "alias_reverse_complete_partial",
    "alias_reverse_complete_refuted"
   ],
   "note": "Completeness of the reverse direction is false when two names share a type."
  },
  {
   "property": "C44",
   "status": "proved",
   "theorems": [
    "symbols_agree_across_threads",
    "symbols_no_deadlock"
   ],
   "note": "Lock semantics (upgradable read excludes upgradable readers and writers) assumed."
  },
  {
   "property": "C15",
   "status": "proved",
   "theorems": [
    "use_lists_exact"
   ],
   "note": "Over all histories of 19 mutators including clone and dispose; op_mut/block_mut/region_mut escape hatches excluded."
  },
  {
   "property": "C16",
   "status": "proved",
   "theorems": [
    "replace_all_uses_redirects",
    "replace_all_uses_changes_only_operands"
   ],
   "note": ""
  },
  {
   "property": "C17",
   "status": "proved",
   "theorems": [
    "placement_consistent",
    "push_op_appends",
    "insert_op_before_inserts",
    "remove_op_from_block_removes",
    "detach_op_detaches"
   ],
   "note": ""
  },
  {
   "property": "C18",
   "status": "partial",
   "theorems": [
    "clone_region_copies_partial",
    "clone_op_copies_partial",
    "clone_region_leaks_reference_refuted"
   ],
   "note": "Proved when every definition is listed before its uses; refuted for dominated uses listed earlier: the copy keeps referring to the original value."
  },
  {
   "property": "C19",
   "status": "proved",
   "theorems": [
    "walk_region_visits_in_order",
    "walk_op_visits_in_order",
    "preorder_is_nesting",
    "preorder_has_no_repeats",
    "region_preorder_is_nesting",
    "trees_exist"
   ],
   "note": "For IR without nesting cycles (the API does not prevent building one)."
  },
  {
   "property": "C45",
   "status": "proved",
   "theorems": [
    "value_definitions_exact",
    "every_value_has_a_type"
   ],
   "note": ""
  },
  {
   "property": "C20",
   "status": "proved",
   "theorems": [
    "components_exact",
    "recursive_functions_exact",
    "call_graph_exact",
    "module_recursion_exact"
   ],
   "note": "Tarjan's algorithm over any key type and any visiting order; builder over module trees; hash iteration orders quantified over."
  },
  {
   "property": "C21",
   "status": "partial",
   "theorems": [
    "eliminates_exactly_unreachable",
    "surviving_calls_resolve_partial",
    "surviving_calls_resolve_refuted"
   ],
   "note": "Exact with respect to the names elimination itself computes; calls into nested modules resolve only when the module carries both a name and a sym_name attribute (refuted otherwise)."
  },
  {
   "property": "C26",
   "status": "proved",
   "theorems": [
    "legality_is_first_ruling",
    "accepted_rules_are_consistent",
    "registration_accepted_exactly",
    "verification_exact"
   ],
   "note": "Over every accepted registration history and every region; dynamic rules are arbitrary functions."
  },
  {
   "property": "C27",
   "status": "proved",
   "theorems": [
    "get_returns_analysis_in_force",
    "get_cached_returns_analysis_in_force",
    "analysis_in_force_unique",
    "disciplined_get_is_current",
    "cache_size_exact"
   ],
   "note": ""
  },
  {
   "property": "C28",
   "status": "partial",
   "theorems": [
    "pipeline_well_sequenced",
    "nested_targets_in_turn",
    "nested_runs_on_surviving_targets_refuted"
   ],
   "note": "Sequencing, hooks, failure handling and turn taking proved for every pipeline; refuted: a nested target erased by an earlier target's pass is still dispatched, because only its class is re-checked."
  },
  {
   "property": "C34",
   "status": "proved",
   "theorems": [
    "integer_getters_exact",
    "text_lookup_exact",
    "symbol_lookup_agrees",
    "typed_write_reads_back"
   ],
   "note": ""
  },
  {
   "property": "C22",
   "status": "partial",
   "theorems": [
    "dce_removes_only_unused_pure_ops",
    "dce_preserves_runs_partial",
    "dce_keeps_traps_refuted"
   ],
   "note": "Structure, fixpoint and counts proved for every arena built through the API and every purity registry, including that elimination never panics. Runs (effects, values, termination) are preserved for all behaviours of impure operations provided pure operations cannot trap. Refuted for trapping operations registered as pure (integer division, array_get, ref_cast): an unused division by zero is removed."
  },
  {
   "property": "C29",
   "status": "partial",
   "theorems": [
    "mangled_names_distinguish_shapes_partial",
    "mangled_names_injective_partial",
    "mangled_names_ignore_effects_refuted",
    "mangled_names_reserved_words_refuted",
    "mangled_names_ignore_origins_refuted"
   ],
   "note": "Exact characterization of when two instantiations share a name, for nominal names outside the mangler's vocabulary. Refuted in full: function types differing only in effects, user types named Fn/Tup/T0/..., and same-named declarations of different origins share names."
  },
  {
   "property": "C30",
   "status": "proved",
   "theorems": [
    "row_membership_exact",
    "row_name_lookup_exact",
    "row_add_is_set_insert",
    "row_remove_is_set_remove",
    "row_removal_outcomes",
    "row_removal_constraint_sound",
    "row_union_is_set_union",
    "conflicting_effects_exact",
    "duplicate_annotation_exact",
    "row_application_exact",
    "row_application_terminates",
    "row_application_tail",
    "row_remove_with_duplicates_refuted"
   ],
   "note": "Set removal needs a duplicate-free row (every row the operations build from duplicate-free rows is); removal from a row with duplicates leaves the effect in place, shown by the refutation."
  },
  {
   "property": "C46",
   "status": "partial",
   "theorems": [
    "undeclared_abilities_reported",
    "undeclared_effects_reported_refuted",
    "entry_point_effects_reported",
    "row_convention_is_least"
   ],
   "note": "Exact for abilities; refuted for effects, because the check of annotations compares abilities and ignores their type arguments."
  },
  {
   "property": "C47",
   "status": "proved",
   "theorems": [
    "joined_path_splits_back",
    "split_path_joins_back",
    "simple_means_no_separator",
    "prefix_buffer_restored",
    "qualified_path_is_joined",
    "qualified_paths_distinct",
    "qualified_paths_with_separators_refuted"
   ],
   "note": "Injectivity for non-empty colon-free segments, which is what the grammar allows."
  },
  {
   "property": "C31",
   "status": "partial",
   "theorems": [
    "bound_variables_replaced",
    "instance_is_fresh_renaming",
    "generalization_abstracts_unresolved",
    "instance_variables_are_apart",
    "first_occurrences",
    "generalization_round_trip",
    "plain_generalization_partial",
    "plain_generalization_refuted"
   ],
   "note": "Proved for substitution, instantiation and generalize_excluding_with_mapping (the one the checker calls). The plain generalize variant, reachable only from tests, returns its argument unresolved when no variable is left (refuted)."
  },
  {
   "property": "C32",
   "status": "proved",
   "theorems": [
    "first_order_solving_decides",
    "first_order_solving_keeps_the_solutions",
    "acyclic_state_has_a_solution",
    "applying_keeps_the_meaning",
    "cyclic_substitution_refuted"
   ],
   "note": "Termination, soundness, most-generality and completeness for every set of first-order type equations (no effect rows, quantified variables, Never or error types), from any acyclic state, with a fuel bound proved to exist. Beyond the first-order fragment a cycle through an effect row escapes the occurs check (cyclic_substitution_refuted)."
  },
  {
   "property": "C33",
   "status": "partial",
   "theorems": [
    "allocated_row_variables_are_new",
    "solving_is_sound_partial",
    "row_unification_equates_rows_partial",
    "free_semantics_separates_rows",
    "repeated_ability_unsound_refuted",
    "row_variable_overwritten_refuted",
    "pure_row_accepted_refuted"
   ],
   "note": "Sound for every constraint set in every set-like semantics of rows, when no compared effect list names an ability twice and no row variable is bound twice. Refuted in full: repeated abilities, a row variable overwritten after being bound while unifying arguments, and the intended pure-row subsumption."
  },
  {
   "property": "C39",
   "status": "partial",
   "theorems": [
    "offset_survives_position",
    "positions_are_the_protocols_partial",
    "form_feed_line_refuted",
    "position_survives_offset",
    "column_rounds_down",
    "offset_rounds_down",
    "missing_line_rejected",
    "column_past_end_partial",
    "column_past_end_refuted",
    "column_past_crlf_refuted",
    "widths_are_the_encodings"
   ],
   "note": "Both round trips are proved for every text; equality with the protocol's positions for texts with LF and CR line breaks. Refuted: clamping at the end of lines that end in CR or CR LF, and line numbers after VT, FF, NEL, LS, PS."
  },
  {
   "property": "C40",
   "status": "partial",
   "theorems": [
    "change_replaces_its_range",
    "server_text_follows_client",
    "server_text_drifts_refuted",
    "full_replacement_sets_the_text",
    "refused_change_stops",
    "edit_describes_the_change_partial",
    "edit_bytes_are_exact",
    "edit_points_refuted",
    "reversed_range_panics_refuted"
   ],
   "note": "Text and bytes exact; over whole edit histories the server's text is the client's when the texts have only LF and CR line breaks. Parser points exact when lines end in LF (any inserted text); refuted after a CR alone. A reversed range panics."
  },
  {
   "property": "C48",
   "status": "proved",
   "theorems": [
    "parser_reads_the_whole_text",
    "answers_continue_the_text"
   ],
   "note": ""
  },
  {
   "property": "C49",
   "status": "proved",
   "theorems": [
    "completion_prefix_is_maximal"
   ],
   "note": "is_alphanumeric is an arbitrary function."
  },
  {
   "property": "C36",
   "status": "proved",
   "theorems": [
    "liveness_is_path_liveness",
    "liveness_terminates",
    "counted_references_are_the_roots",
    "aliases_are_the_casts",
    "owners_are_everything_that_keeps_alive"
   ],
   "note": ""
  },
  {
   "property": "C37",
   "status": "partial",
   "theorems": [
    "inserted_counting_is_balanced_partial",
    "released_on_every_path_refuted",
    "no_use_after_release_refuted",
    "tail_call_arguments_alive_refuted"
   ],
   "note": "Insertion on all functions that meet `insertable` runs balanced on every path; three classes of functions outside it are refuted: a reference needed on one branch only leaks, a reference passed to a block that still needs it is released twice, an uncontracted tail call gets a released argument. Call contracts and borrow information are inputs."
  },
  {
   "property": "C38",
   "status": "partial",
   "theorems": [
    "pair_removal_keeps_behaviour_partial",
    "quiet_pair_removal_keeps_behaviour_partial",
    "all_pairs_are_removed",
    "pair_removal_frees_too_early_refuted"
   ],
   "note": "Proved on a machine with deep release, with operations that may load, store, retain, release and allocate arbitrarily: removing a pair keeps every successful run as long as the object has another owner between the two. The full claim is refuted on code produced by the insertion model."
  },
  {
   "property": "C41",
   "status": "proved",
   "theorems": [
    "tail_resumptive_detection_exact",
    "tail_resumptive_detection_never_panics",
    "tail_resumptive_body_is_a_plain_yield"
   ],
   "note": "Over the IR arena, for every context built through its API. The rewrite of the accepted suspend operation (detaching the body region and creating the yield operation) is not modelled."
  },
  {
   "property": "C25",
   "status": "proved",
   "theorems": [
    "scope_validation_exact",
    "scope_validation_terminates"
   ],
   "note": "For every arena built through the API without nesting cycles. Only the check of func.func and wasm.func is in the code: functions of other dialects (clif.func) are never scope-checked."
  },
  {
   "property": "C50",
   "status": "proved",
   "theorems": [
    "use_validation_exact",
    "use_validation_accepts_closed_modules",
    "use_validation_terminates"
   ],
   "note": "Error messages are not modelled, only what they identify."
  },
  {
   "property": "C42",
   "status": "partial",
   "theorems": [
    "cast_resolution_exact_partial",
    "cast_resolution_succeeds",
    "unreported_casts_refuted",
    "chained_casts_refuted",
    "order_of_blocks_refuted"
   ],
   "note": "For every arena built through the API, every conversion table and every materializer given as a plan of operations: each removed cast was trivial or materialized, its readers read the converted value, nothing else changes, and each other well-formed cast is reported. Not every remaining cast is reported (refuted for casts without operand or result and for casts that the materializer emits); two further refutations concern pass-through materializers and block order. Materializers other than plans are not modelled."
  },
  {
   "property": "C24",
   "status": "partial",
   "theorems": [
    "lowering_keeps_behaviour",
    "lowering_same_results",
    "lowering_leaves_no_structure",
    "lowering_complete_refuted"
   ],
   "note": "For every arena built through the API that is tidy (no operation inside itself, operands exist, exits have no regions) and whose ifs and loops have at most one result and switches none, for all inputs and all worlds, of every program region that does not run into malformed IR. With more results the pass leaves structured operations behind (refuted). Missing: that the pass returns (does not panic or run out of fuel) on all such IR."
  },
  {
   "property": "C35",
   "status": "partial",
   "theorems": [
    "types_read_back",
    "attributes_read_back",
    "plain_text_reads_back",
    "printing_is_injective",
    "alias_names_refuted",
    "keyword_dialect_refuted",
    "infinite_floats_do_not_read",
    "swallowed_braces_refuted"
   ],
   "note": "All types and attributes with identifier-shaped names, in any following text that does not continue them, with any alias map. Refuted: alias names starting with a digit, attribute types whose dialect starts with true/false/unit, and an empty region after a type with parameters. Float formatting and reading are assumed to be decimal and inverse to each other for finite floats."
  },
  {
   "property": "C51",
   "status": "partial",
   "theorems": [
    "operations_read_back",
    "modules_read_back",
    "module_texts_apart",
    "results_taken_as_operands_refuted",
    "empty_module_refuted",
    "empty_region_refuted",
    "quoted_alias_refuted",
    "elided_label_refuted",
    "empty_block_refuted"
   ],
   "note": "All generic operations and functions of any nesting, with any alias map, and modules with alias definitions. Printing leaves out labels of lone blocks and attributes shown in a signature; the specification (reread) says exactly what. Refuted: an operation without any printed part before one with results, empty modules and regions, quotes in alias names, and lone blocks that branch to themselves. Not modelled: the numbering of values, the building of IR from the parsed form, nested modules and the custom formats of the tribute dialects."
  },
  {
   "property": "C52",
   "status": "partial",
   "theorems": [
    "aliases_resolve",
    "module_aliases_resolve",
    "aliases_in_order",
    "made_up_names_fresh",
    "aliases_ignore_hash_order",
    "aliases_deterministic",
    "nested_alias_refuted",
    "equal_texts_refuted"
   ],
   "note": "For every registry with distinct names (C14: the registry's list has them) and every module printed on its own; for nested modules if the outer aliases do not reuse registry names. Two names for one type in the registry and a nested module break it (refuted). Independence of the hash order holds where different types have different texts, which C35 gives for printable types. The complexity measure is arbitrary."
  },
  {
   "property": "C53",
   "status": "partial",
   "theorems": [
    "modules_round_trip_partial",
    "numbering_is_renaming",
    "text_ignores_references",
    "forward_use_refuted",
    "repeated_results_refuted",
    "nested_function_refuted",
    "argument_names_refuted",
    "type_attributes_refuted"
   ],
   "note": "For modules whose operations are generic and without results, or functions (with or without a body) whose type is that of the signature; definitions precede uses in the text. Refuted outside: uses printed before their definition, several results at the top level, functions nested in other operations, attributes of function types; and reading adds a bind_name attribute to every argument. Missing: nested modules, custom formats other than func.func, functions nested in operations."
  },
  {
   "property": "C23",
   "status": "partial",
   "theorems": [
    "inlining_keeps_behaviour_partial",
    "any_inlining_keeps_behaviour_partial",
    "inlining_keeps_validity",
    "inlining_terminates",
    "policy_exact",
    "inlining_complete",
    "inlining_idempotent",
    "inlining_keeps_behaviour_refuted"
   ],
   "note": "For every valid module of structured functions (one block per region, returns only at the end of inlinable functions), every configuration and every meaning of the other operations: same returned values and effects, validity kept, termination, completeness. Missing: functions of several blocks, effects of calls that never return. Refuted for callees with a return inside a region, which the pass does not check."
  },
  {
   "property": "C54",
   "status": "partial",
   "theorems": [
    "logical_case_runs_selected_arm",
    "logical_exhaustive_case_partial",
    "legacy_case_partial",
    "comp_case_partial",
    "checked_case_partial",
    "legacy_case_refuted",
    "last_arm_refuted",
    "logical_exhaustive_case_refuted",
    "literal_case_refuted",
    "named_field_refuted",
    "named_fields_in_order_partial"
   ],
   "note": "Logical route without the exhaustive flag: all well-typed supported arms. With the flag: if some arm is selected. Driver's routes (direct and continuation-passing): if the fields of variant patterns match everything and some arm is selected, which follows from the exhaustiveness check (checked_case_partial). Refuted outside. Casts between representations, literals beyond 31 bits, record, string, float and unit patterns are outside; sub-expressions are an oracle that depends on the values of their variables."
  },
  {
   "property": "C55",
   "status": "partial",
   "theorems": [
    "exhaustive_sound_partial",
    "exhaustive_complete_partial",
    "exhaustive_sound_refuted",
    "exhaustive_complete_refuted"
   ],
   "note": "Sound for arms whose variant patterns have no tests inside; complete for enums, lists and Bool with arms of one test each. Refuted outside: nested tests are ignored, catch-all arms before the last are not recognized, tuples and unsolved types are accepted without a proof."
  },
  {
   "property": "C56",
   "status": "proved",
   "theorems": [
    "names_resolved",
    "reported_names_unresolved"
   ],
   "note": "For all programs, environments and hash orders: the output is related to the input by the scoping relation of ResolveSpec, all binders are different and none has the reserved number, and each report has an unresolved reference. Programs with more than 2^32-1 local variables (where the code panics) give no result in the model. Spans, types of annotations and suggestions are not modelled."
  },
  {
   "property": "C57",
   "status": "partial",
   "theorems": [
    "declared_items_reached",
    "declared_items_found",
    "only_declared_items",
    "only_declared_definitions",
    "prelude_fills_gaps",
    "imports_are_declared",
    "use_gives_names",
    "resolution_order_irrelevant",
    "use_order_refuted",
    "variants_distinct_refuted",
    "neighbour_module_refuted",
    "module_effects_refuted",
    "module_use_refuted",
    "outer_items_refuted",
    "reopened_module_refuted"
   ],
   "note": "Proved for files in which no module has two modules of the same name and, for the exact meaning, no path is declared with two meanings; std::io::Io is builtin. The order of traversal is irrelevant if no import is looked up through the name of another. Refuted: chained imports depend on the hash order, variants of different enums share a constructor, relative paths, use and declared effects do not work inside modules, a reopened module can lose items."
  },
  {
   "property": "C58",
   "status": "partial",
   "theorems": [
    "specialized_program",
    "specialized_tables",
    "specialized_types",
    "no_instance_left_open",
    "references_reach_copies",
    "copy_names_distinct_partial",
    "specialization_order_irrelevant",
    "specialization_succeeds",
    "specialization_depth",
    "deep_chain_refuted",
    "polymorphic_recursion_refuted",
    "copy_names_refuted",
    "continuation_argument_refuted",
    "effect_parameter_refuted"
   ],
   "note": "For every program that meets source_ok (what type checking gives; decidable by check): declarations, metadata and types of the result are exactly those of the needed instances, references are redirected, order is irrelevant; it succeeds exactly when chains of needs are shorter than 64. Names of copies are distinct for plain type arguments only; refuted for arguments that differ in effects. Refuted: programs that need deeper chains or infinitely many instances, continuation arguments, type parameters only in effects. The variant hash is assumed to separate the needed instances of a function. Specialization of types is not part of this claim."
  },
  {
   "property": "C59",
   "status": "partial",
   "theorems": [
    "method_calls_resolved",
    "methods_determined",
    "remaining_calls_have_no_method",
    "remaining_calls_reported",
    "second_run_changes_nothing",
    "fields_are_methods_partial",
    "panics_exactly",
    "row_variable_refuted",
    "companion_module_refuted",
    "generic_field_refuted"
   ],
   "note": "For all programs whose names are identifiers: the output is related to the input by the relation of TdnrSpec with the methods that the declarations offer; what is left fits no single method and is reported; a second run changes nothing; the only panic is a row variable among the effects of a function with a receiver. Refuted: such programs do panic; a module with the name of a struct can hide its fields; fields of generic structs lose their type argument. The inference of method types during type checking is not modelled."
  },
  {
   "property": "C60",
   "status": "partial",
   "theorems": [
    "nat_literals_denote",
    "only_nat_literals_accepted",
    "int_literals_denote",
    "pattern_ints_agree",
    "text_literals_denote_partial",
    "text_literals_exactly",
    "every_text_has_a_literal",
    "all_bytes_have_a_literal",
    "raw_text_denotes_its_body",
    "raw_bytes_denote_their_body",
    "bytes_literals_denote",
    "rune_literals_denote",
    "rune_bytes_denote",
    "pattern_texts_agree_partial",
    "raw_patterns_denote_their_body",
    "byte_escape_panics_refuted",
    "pattern_byte_escapes_refuted",
    "pattern_prefixes_refuted",
    "multiline_text_refuted",
    "multiline_bytes_refuted",
    "surrogate_escape_refuted"
   ],
   "note": "Numbers, bytes, runes and raw literals denote what syntax.md says, for all literals; texts do without byte escapes above 7F, and exactly when their bytes encode characters. Refuted: a byte escape can panic the compiler; patterns read byte escapes and prefixes differently; multiline literals keep their delimiters or escapes; an escaped surrogate disappears. Floating point literals and the tree-sitter grammar are not modelled."
  },
  {
   "property": "C61",
   "status": "partial",
   "theorems": [
    "int_parse_answers_partial",
    "int_parse_always_answers",
    "answers_are_unique",
    "int_parse_never_overflows",
    "int_to_string_is_canonical",
    "canonical_texts_are_unique",
    "int_text_round_trip",
    "huge_text_parsed_refuted"
   ],
   "note": "Complete for texts of up to 2^31 bytes. Beyond 2^32 bytes only a prefix is parsed (refuted), because lengths are 32 bits wide."
  },
  {
   "property": "C62",
   "status": "partial",
   "theorems": [
    "string_len_is_text_length",
    "to_bytes_is_text",
    "string_equality_is_text_equality",
    "string_inequality_is_text_inequality",
    "huge_strings_equal_refuted"
   ],
   "note": "Complete for strings whose leaves are shorter than 2^32 bytes; refuted for longer leaves. The bound on live cursor nodes stated in string.md is not proved."
  },
  {
   "property": "C63",
   "status": "partial",
   "theorems": [
    "bytes_get_partial",
    "bytes_get_past_end",
    "get_panics_on_wasm",
    "native_get_reads_past_the_end",
    "get_or_panic_native_refuted",
    "get_high_byte_refuted",
    "get_far_index_refuted",
    "bytes_slice_clamps",
    "slice_or_panic_panics"
   ],
   "note": "Slicing is complete; reading is complete on Wasm. Refuted on the native target: get_or_panic does not check its index, and bytes from 128 on and indices from 2^31 on are sign-extended."
  },
  {
   "property": "C64",
   "status": "partial",
   "theorems": [
    "native_operators",
    "wasm_operators_partial",
    "wasm_nat_order_refuted",
    "targets_agree_partial",
    "operators_known",
    "int_wraps",
    "native_arithmetic",
    "wasm_arithmetic_partial",
    "wasm_narrow_arithmetic_refuted",
    "native_shifts",
    "wasm_shifts_partial",
    "negations",
    "float_negations",
    "native_comparisons",
    "wasm_comparisons_partial",
    "conversions_agree"
   ],
   "note": "Native code is complete for all declared operators and operands, over any float arithmetic. On Wasm, Nat <=, > and >= are not compiled (refuted); all others are complete. The semantics of the machine instructions (OperatorMachine) is trusted."
  },
  {
   "property": "C65",
   "status": "partial",
   "theorems": [
    "native_boxes_preserve",
    "wasm_boxed_int_partial",
    "wasm_boxed_int",
    "wasm_boxed_nat_partial",
    "wasm_boxed_bool",
    "wasm_boxed_float",
    "wasm_boxed_int_refuted",
    "wasm_boxed_nat_refuted"
   ],
   "note": "Complete for native code. On Wasm a box holds 31 bits: exactly the Int values within 31 bits survive, and exactly the Nat values below 2^30 or from 2^32 - 2^30 on; Bool and Float always do."
  },
  {
   "property": "C66",
   "status": "partial",
   "theorems": [
    "handlers_give_reference_result_partial",
    "handlers_keep_divergence_partial",
    "handlers_give_only_reference_results_partial",
    "run_state_native",
    "resume_value_refuted",
    "stop_skips_suffix_refuted",
    "resume_across_handler_refuted",
    "finished_handler_refuted",
    "own_ability_refuted",
    "run_state_wasm_refuted",
    "operation_in_fn_arm_refuted",
    "missing_arm_refuted"
   ],
   "note": "Proved by a step-by-step simulation for all programs whose op arms resume only as their last action, whose fn arms and direct functions neither handle nor perform op operations, and in whose runs no ability gets a second handler while one is active or suspended; run_state is proved separately for the native target. Refuted outside of this: the value of resume, the rest of an arm after resume, handlers that have ended, arms that use their own ability, run_state on Wasm, op operations in fn arms, missing arms."
  },
  {
   "property": "C67",
   "status": "proved",
   "theorems": [
    "borrowed_parameters_exact",
    "borrowed_argument_needs_no_count",
    "direct_call_contracts_agree",
    "indirect_call_contracts_agree",
    "tail_calls_have_contracts"
   ],
   "note": "Functions are flat lists of operations that run in any order, which covers every control flow. For indirect calls, that the callee fits the signature and convention of the call is a hypothesis; it is the business of target_abi.rs."
  },
  {
   "property": "C68",
   "status": "partial",
   "theorems": [
    "normalization_keeps_meaning",
    "normalization_reaches_normal_form",
    "normalization_keeps_normal_forms",
    "normalization_succeeds",
    "validator_exact_refuted",
    "direct_code_same_order_refuted",
    "direct_code_same_order_partial"
   ],
   "note": "The flattening itself is proved completely, for every lawful universe of values and effects. Direct code keeps the order for programs in which each call names its callee; otherwise the arguments come before the callee (refuted). The debug assertion does not see into lambdas in argument position (refuted)."
  },
  {
   "property": "C69",
   "status": "proved",
   "theorems": [
    "closures_keep_their_variables",
    "no_closure_operation_is_left",
    "lifted_functions_have_their_own_names",
    "closure_conversion_ends"
   ],
   "note": "For well-scoped programs in which no function has a name reserved for lifted lambdas, and for source runs that do not go wrong (such a run has no defined result)."
  },
  {
   "property": "C70",
   "status": "proved",
   "theorems": [
    "lambda_captures_exact",
    "continuation_captures_exact",
    "handler_captures_exact",
    "guard_captures_exact",
    "captures_are_enough",
    "continuation_captures_are_enough",
    "only_free_variables_matter",
    "captures_are_ordered",
    "captures_are_deterministic",
    "scopes_nest"
   ],
   "note": "For well-scoped expressions in which no binder reuses an id in scope, as name resolution leaves them. Order and determinism for scopes without an id in two of them, as the code states."
  },
  {
   "property": "C71",
   "status": "partial",
   "theorems": [
    "accepted_programs_do_not_go_wrong_partial",
    "checked_signatures_fit_their_bodies",
    "closed_signatures_promise_nothing_early",
    "more_fuel_solves_the_same",
    "logic_has_its_type_refuted",
    "tuple_patterns_type_their_variables_refuted",
    "list_patterns_type_their_variables_refuted",
    "constructor_patterns_have_all_fields_refuted",
    "guards_are_conditions_refuted",
    "open_signatures_keep_their_promises_refuted",
    "named_types_stay_open_refuted"
   ],
   "note": "Type soundness is proved for accepted programs in which the first pass had nothing to guess and no function with an open signature is used before its definition; both conditions are needed (refuted without them). Without effects, records, methods and handlers."
  },
  {
   "property": "C72",
   "status": "partial",
   "theorems": [
    "structured_functions_compile_to_valid_code_partial",
    "compiled_code_does_what_the_operations_do_partial",
    "values_live_in_locals_of_their_own",
    "break_below_two_conditionals_leaves_the_loop_refuted",
    "continue_in_the_loop_itself_goes_on_refuted",
    "value_of_a_conditional_with_an_early_return_refuted",
    "nil_constant_in_a_branch_is_valid_refuted",
    "loop_with_two_carried_values_compiles_refuted"
   ],
   "note": "Proved for functions in which loops are left and continued from a conditional directly in them with at most one carried value, the first branch of a conditional with a result yields it, and operations with nil results push nothing; each of these conditions is needed (refuted without it)."
  },
  {
   "property": "C73",
   "status": "partial",
   "theorems": [
    "find_references_finds_exactly_the_references",
    "goto_definition_leads_to_the_declaration",
    "rename_is_offered_for_the_symbol_under_the_cursor",
    "rename_replaces_the_declaration_and_the_references",
    "rename_renames_every_occurrence_partial",
    "renaming_a_function_keeps_its_declaration_refuted",
    "renaming_a_parameter_keeps_its_type_refuted",
    "renaming_a_variant_keeps_fields_and_arguments_refuted",
    "rename_is_offered_for_pattern_variables_refuted",
    "rename_renames_the_parameter_under_the_cursor_refuted",
    "find_references_tells_functions_from_variables_refuted",
    "goto_definition_tells_functions_from_variables_refuted",
    "rename_keeps_names_apart_refuted"
   ],
   "note": "For symbols that are told apart by more than their name (or have a name of their own) and a cursor that is not inside of a reference to something else; the renamed text where names are the whole text of their nodes. Each condition is needed (refuted without it)."
  },
  {
   "property": "C74",
   "status": "partial",
   "theorems": [
    "installing_a_handler_succeeds",
    "a_found_handler_is_of_the_ability",
    "an_unhandled_ability_traps",
    "the_newest_handler_is_found_partial",
    "outer_handlers_are_lost",
    "only_the_middle_handler_is_found",
    "an_outer_handler_is_found_refuted",
    "a_kept_handler_is_found_refuted",
    "the_newest_of_an_ability_is_found_refuted"
   ],
   "note": "Installing never fails or changes older evidence, and a lookup never gives a handler of another ability. That the newest handler of an ability is found holds only for the handler installed last, with at most two handlers or ids not below the number of handlers; it is refuted otherwise."
  },
  {
   "property": "C75",
   "status": "partial",
   "theorems": [
    "a_dead_struct_gives_up_its_pointers",
    "a_dead_variant_gives_up_its_pointers",
    "types_have_their_own_release_function",
    "a_declared_type_gives_up_only_bytes",
    "numbers_are_balanced_partial",
    "types_that_hold_objects_are_not_balanced",
    "an_object_gives_up_what_it_kept_refuted",
    "an_object_in_a_field_is_freed_refuted"
   ],
   "note": "The generated functions release exactly the fields of pointer type and free the allocated size. But fields that hold objects have the type anyref, which is retained and not seen as a pointer here: the property holds for declared types of scalars and is refuted for every declared type with another field."
  },
  {
   "property": "C76",
   "status": "partial",
   "theorems": [
    "wasm_print_puts_out_the_text",
    "wasm_print_never_garbles",
    "wasm_print_completes",
    "wasm_print_stops_without_memory",
    "targets_print_the_same_partial",
    "targets_print_the_same_line_partial",
    "targets_print_the_same_refuted"
   ],
   "note": "The WebAssembly part holds for every range, flag, memory, growth policy and honest host. Agreement with the native program holds without a newline, and with one as long as the host takes something each time; after a failure the native program still prints the newline (refuted)."
  },
  {
   "property": "C77",
   "status": "partial",
   "theorems": [
    "an_operation_reaches_its_handler_partial",
    "an_operation_reaches_its_handler_refuted",
    "abilities_are_told_apart_refuted",
    "attributes_of_arguments_are_ignored",
    "other_arguments_are_told_apart",
    "declared_types_are_told_apart_refuted",
    "an_operation_runs_its_arm_partial"
   ],
   "note": "Proved if the hash tells apart the names that occur and an ability is installed at one list of type arguments only. Refuted for every hash function: the references drop the type arguments, the numbers of the new lowering ignore the names of declared types, and collisions are not checked."
  },
  {
   "property": "C78",
   "status": "partial",
   "theorems": [
    "native_literals_keep_their_text_partial",
    "native_literals_keep_their_text_refuted",
    "literals_point_at_a_function_of_their_name",
    "wasm_literals_keep_their_text_partial",
    "wasm_literals_keep_their_text_refuted",
    "strings_without_their_type_are_refused"
   ],
   "note": "Native: proved for programs without functions named like read-only data; with such a function the literal points at code (refuted). WebAssembly: proved for literals below 2^32 bytes; longer ones are cut without an error (refuted)."
  },
  {
   "property": "C79",
   "status": "partial",
   "theorems": [
    "native_lists_behave_like_lists_partial",
    "native_lists_behave_like_lists_refuted",
    "no_list_operation_is_left"
   ],
   "note": "Proved (lowering succeeds; returned values, stops and endless runs agree) for modules in which every value is defined once and no list is looked into before it is made in the order of the text; nested regions are those of scf.if. Without the order the result of a later observation is used after it was removed (refuted)."
  },
  {
   "property": "C80",
   "status": "partial",
   "theorems": [
    "a_fixpoint_leaves_nothing_to_do",
    "patterns_that_make_progress_finish",
    "patterns_without_a_target_finish",
    "conversions_report_what_is_left",
    "legal_code_is_left_alone",
    "recorded_code_is_put_in",
    "no_use_is_left_hanging",
    "ten_iterations_are_enough_refuted",
    "too_few_results_leave_uses_hanging"
   ],
   "note": "Proved for patterns that act through the rewriter, without automatic conversion of types. Patterns that lower a rank finish if the limit is above the highest rank. With the default limit of ten iterations work can be left although a partial conversion succeeds (refuted). No use of a removed value is left if patterns give a value for every result and keep the values of nested code."
  },
  {
   "property": "C81",
   "status": "partial",
   "theorems": [
    "hover_shows_the_type_partial",
    "hover_shows_the_nearest_entry",
    "hover_shows_nothing_without_an_entry",
    "hover_shows_the_type_refuted"
   ],
   "note": "Proved over variables, literals, records and constructors without arguments. Other expressions have no entry, so the type of an enclosing one is shown, and a constructor with arguments is shown with its type as a function (refuted)."
  },
  {
   "property": "C82",
   "status": "partial",
   "theorems": [
    "shown_types_are_told_apart_partial",
    "shown_types_end_in_one_place",
    "leaves_are_shown_by_name",
    "shown_types_are_told_apart_refuted"
   ],
   "note": "Proved for types without inference variables and with at most one row variable, in which every name stands for one definition. Refuted otherwise: different inference variables, row variables and definitions of the same name have the same text."
  },
  {
   "property": "C83",
   "status": "partial",
   "theorems": [
    "list_construction_is_lowered_partial",
    "no_list_intrinsic_is_left",
    "functions_of_that_name_are_left_alone",
    "list_construction_is_lowered_refuted"
   ],
   "note": "Proved for programs with unique names that only call the intrinsic. The pass removes its declaration even if it is also used as a function value, which is then missing (refuted at the level of the IR; the prelude only calls it)."
  },
  {
   "property": "C84",
   "status": "partial",
   "theorems": [
    "signature_help_finds_the_call_partial",
    "signature_help_finds_the_parameter_partial",
    "no_signature_help_outside_calls",
    "signature_help_never_shown",
    "signature_help_finds_the_call_refuted"
   ],
   "note": "Proved for syntax trees that name the arguments of a call, where it is right for every nesting and position. The grammar does not name them, so help is never shown (refuted). Looking up the signature by the text of the callee is not modelled."
  },
  {
   "property": "C85",
   "status": "partial",
   "theorems": [
    "diagnostics_are_shown_in_order",
    "diagnostics_order_is_fixed_partial",
    "shown_places_and_texts_are_fixed",
    "equal_diagnostics_keep_their_order",
    "diagnostics_order_is_fixed_refuted"
   ],
   "note": "Order and completeness are proved for all lists, and that phases, places and texts come in the same order however they were found. Independence of the order of finding is proved if no two diagnostics agree in phase, span and message but differ otherwise, and refuted without that: severity, labels and note are not compared. Only the sort is modelled, not how diagnostics are collected or printed."
  }
 ]
}