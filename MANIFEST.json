{
 "claims": [
  {
   "property": "C01",
   "status": "proved",
   "theorems": [
    "C01_tuple_round_trip",
    "C01_struct_round_trip"
   ],
   "note": ""
  },
  {
   "property": "C02",
   "status": "proved",
   "theorems": [
    "C02_array_round_trip",
    "C02_array_slice"
   ],
   "note": "Element reads carry the side condition that the array has at most 2^32 bits, the range of the 32-bit literal in the emitted index product."
  },
  {
   "property": "C03",
   "status": "partial",
   "theorems": [
    "C03_enum_round_trip_partial",
    "C03_enum_member_refuted"
   ],
   "note": "Holds except for a one-bit member of a single-variant enum that is followed by other members; that case is refuted by C03_enum_member_refuted."
  },
  {
   "property": "C04",
   "status": "proved",
   "theorems": [
    "C04_add_exact",
    "C04_sub_exact",
    "C04_mul_exact",
    "C04_uadd_exact",
    "C04_umul_exact",
    "C04_usub_exact",
    "C04_usub_modular",
    "C04_neg_exact"
   ],
   "note": "Widths as imposed by type inference; also unary minus and wrapping of unsigned subtraction."
  },
  {
   "property": "C05",
   "status": "proved",
   "theorems": [
    "C05_compare_signed",
    "C05_compare_unsigned"
   ],
   "note": ""
  },
  {
   "property": "C06",
   "status": "proved",
   "theorems": [
    "C06_zext_exact",
    "C06_sext_exact",
    "C06_trunc_unsigned",
    "C06_trunc_signed",
    "C06_concat",
    "C06_div",
    "C06_mod",
    "C06_udiv",
    "C06_umod",
    "C06_shl",
    "C06_shr",
    "C06_sar"
   ],
   "note": ""
  },
  {
   "property": "C07",
   "status": "partial",
   "theorems": [
    "C07_div_pow2_zero",
    "C07_div_pow2_half_up_partial",
    "C07_rounds_up_refuted",
    "C07_rounds_to_zero_refuted",
    "C07_wide_refuted"
   ],
   "note": "The emitted code rounds half up; both documented roundings are refuted. The exact value is proved for dividends under 32 bits and exponents up to 30."
  },
  {
   "property": "C08",
   "status": "proved",
   "theorems": [
    "C08_literal",
    "C08_literal_signed",
    "C08_literal_unsigned"
   ],
   "note": ""
  },
  {
   "property": "C09",
   "status": "proved",
   "theorems": [
    "C09_first_match",
    "C09_no_match"
   ],
   "note": ""
  },
  {
   "property": "C10",
   "status": "partial",
   "theorems": [
    "C10_legal_partial",
    "C10_sext_refuted",
    "C10_trunc_refuted",
    "C10_zero_width_refuted"
   ],
   "note": "Legality of all selects is proved for every operator on well-typed operands except sign extension/truncation of one-bit values and zero-width operands of operators that do not filter them; those are refuted."
  },
  {
   "property": "C11",
   "status": "partial",
   "theorems": [
    "C11_array_eq_partial",
    "C11_array_eq_refuted"
   ],
   "note": "Proved for fully defined element values; refuted for Option elements, whose padding is compared."
  },
  {
   "property": "C12",
   "status": "proved",
   "theorems": [
    "C12_edge",
    "C12_history"
   ],
   "note": "Address and data widths at least one bit; any number of ports, any history. Initial contents not included."
  },
  {
   "property": "C13",
   "status": "partial",
   "theorems": [
    "C13_tuple",
    "C13_struct",
    "C13_array",
    "C13_slice_partial",
    "C13_slice_refuted"
   ],
   "note": "Tuples, structs and array elements proved; array slices only when forward and backward size of the element coincide, refuted otherwise."
  },
  {
   "property": "C14",
   "status": "partial",
   "theorems": [
    "C14_pattern_partial",
    "C14_match_partial"
   ],
   "note": "Proved for every pattern and every match over types for which C02 and C03 hold (arrays up to 2^32 bits, no one-bit member misread in one-variant enums)."
  },
  {
   "property": "C15",
   "status": "partial",
   "theorems": [
    "C15_exhaustive_partial",
    "C15_exhaustive_off_by_one_partial",
    "C15_covering_accepted",
    "C15_check_total",
    "C15_literal_refuted",
    "C15_opaque_refuted",
    "C15_let_refuted"
   ],
   "note": "Proved for arms without integer literals; with literals up to an error of one, and refuted exactly. No false alarms, no panic on data types. Also refuted for opaque columns and let bindings."
  },
  {
   "property": "C16",
   "status": "partial",
   "theorems": [
    "C16_witness_partial",
    "C16_witness_literal_free",
    "C16_range_refuted",
    "C16_panic_refuted"
   ],
   "note": "Every witness has an unmatched value; all its values are unmatched when arms have no integer literals, refuted otherwise. Panic on copy views of enums."
  },
  {
   "property": "C17",
   "status": "proved",
   "theorems": [
    "C17_delay",
    "C17_too_early",
    "C17_undelayed",
    "C17_function"
   ],
   "note": "Delay, too-early, undelayed and end-to-end function theorems hold for every body, stage and input history. The function theorem needs the timing discipline of C20 (see its refutations)."
  },
  {
   "property": "C18",
   "status": "partial",
   "theorems": [
    "C18_ready",
    "C18_registers",
    "C18_items",
    "C18_condition_stage_refuted",
    "C18_nested_refuted"
   ],
   "note": "ready is the conjunction and registers move together, for every stall history. Refuted: conditions of later stages read stage-0 values; nested pipelines do not stall."
  },
  {
   "property": "C19",
   "status": "proved",
   "theorems": [
    "C19_registers",
    "C19_items",
    "C19_stream"
   ],
   "note": "Conservation of items per register, per stage and end to end; valid outputs are the function of the accepted inputs in order."
  },
  {
   "property": "C20",
   "status": "partial",
   "theorems": [
    "C20_availability_partial",
    "C20_if_refuted",
    "C20_match_refuted",
    "C20_block_refuted"
   ],
   "note": "Proved for well timed expressions; refuted for if conditions, match scrutinees and block bindings, which the availability computation ignores."
  },
  {
   "property": "C21",
   "status": "proved",
   "theorems": [
    "C21_forward",
    "C21_backward",
    "C21_single_definitions"
   ],
   "note": "Both directions, for every hash iteration order and every semantics of the operators."
  },
  {
   "property": "C22",
   "status": "partial",
   "theorems": [
    "C22_number",
    "C22_distinct",
    "C22_independent",
    "C22_forward",
    "C22_backward",
    "C22_identifiers_partial",
    "C22_identifiers_refuted",
    "C22_port_refuted"
   ],
   "note": "Numbering, injectivity, independence of ids and preservation of behaviour are proved without proviso. Distinctness of the emitted identifiers needs that no variable is spelled like a compiler-made identifier; refuted without."
  },
  {
   "property": "C23",
   "status": "partial",
   "theorems": [
    "C23_forward",
    "C23_single_driver",
    "C23_single_alias",
    "C23_backward_partial",
    "C23_set_refuted",
    "C23_output_refuted"
   ],
   "note": "Behaviours are kept and one driver remains. The converse is proved up to assignments the pass removes; a removed assignment can be the only driver (refuted), and an output bound to a merged wire dangles (refuted)."
  },
  {
   "property": "C24",
   "status": "partial",
   "theorems": [
    "C24_no_reset",
    "C24_pass_partial",
    "C24_names",
    "C24_reset_refuted",
    "C24_zero_member_refuted"
   ],
   "note": "Proved for every type without reset, and for the whole pass when reset values have equal bits. With another reset value the split registers get the wrong reset value (refuted). Zero-size members get undeclared registers (refuted)."
  },
  {
   "property": "C25",
   "status": "proved",
   "theorems": [
    "C25_gated",
    "C25_idle",
    "C25_others",
    "C25_unit_refuted",
    "C25_names"
   ],
   "note": "Same option in every cycle with and without reset, and no payload toggling for variant 0. For a unit payload the emitted Verilog is not legal (C25_unit_refuted)."
  },
  {
   "property": "C26",
   "status": "partial",
   "theorems": [
    "C26_lookup",
    "C26_rollback_partial",
    "C26_leak_refuted"
   ],
   "note": "C26_lookup is the full statement for lookups. C26_rollback_partial covers every attempt (new types, equations that succeed or fail, constraints, lookups, nested attempts, trait bounds and implementations) when types with implementations have a fixed number of parameters. C26_leak_refuted shows the code violates the property without that: impls for tuples of different lengths leak a checkpoint."
  },
  {
   "property": "C27",
   "status": "partial",
   "theorems": [
    "C27_equal_partial",
    "C27_refines_partial",
    "C27_stay_equal_partial",
    "C27_unlinked_refuted",
    "C27_generic_refuted"
   ],
   "note": "Proved for every reachable state without trait bounds on unknown types and without generic parameters in scope. C27_unlinked_refuted and C27_generic_refuted show the full property fails in the code with trait bounds and with generic parameters."
  },
  {
   "property": "C28",
   "status": "partial",
   "theorems": [
    "C28_complete_partial",
    "C28_exact_partial",
    "C28_sign_refuted"
   ],
   "note": "Proved for every reachable state (failed equations included) without trait bounds, when the state does not mix signed-only and unsigned-only unknown sizes. C28_sign_refuted shows the code violates the property when it does."
  },
  {
   "property": "C29",
   "status": "partial",
   "theorems": [
    "C29_finite_partial",
    "C29_terminates_partial"
   ],
   "note": "Proved for every history of new types, equations (successful or failed), constraints and lookups, without trait bounds and generic parameters. Missing: histories with trait bounds."
  },
  {
   "property": "C30",
   "status": "partial",
   "theorems": [
    "C30_solved_partial",
    "C30_evaluate_partial",
    "C30_order_partial",
    "C30_order_succeeds_partial",
    "C30_order_types_partial"
   ],
   "note": "Solved values, evaluation and independence of the order of equations are proved for every reachable state without trait bounds. Missing: trait bounds."
  },
  {
   "property": "C31",
   "status": "partial",
   "theorems": [
    "C31_int",
    "C31_uint",
    "C31_uint_negative_refuted"
   ],
   "note": "Signed widths in full, unsigned widths for nonnegative numbers; C31_uint_negative_refuted: a negative number gets an unsigned width instead of an error."
  },
  {
   "property": "C32",
   "status": "partial",
   "theorems": [
    "C32_no_overlap_partial",
    "C32_bool_refuted",
    "C32_alias_refuted"
   ],
   "note": "no two accepted blocks of one trait apply to the same concrete type and trait arguments, for all patterns without boolean type arguments and alias names; with a boolean argument, or an alias of a tuple, array or inverted type, two overlapping blocks are accepted (C32_bool_refuted, C32_alias_refuted)"
  },
  {
   "property": "C33",
   "status": "proved",
   "theorems": [
    "C33_unsigned",
    "C33_signed",
    "C33_undefined"
   ],
   "note": "All vector lengths, including the 64-bit chunking; an empty signed vector (never passed) is excluded."
  },
  {
   "property": "C34",
   "status": "partial",
   "theorems": [
    "C34_text_partial",
    "C34_text_short_arrays",
    "C34_array_refuted",
    "C34_abbreviated"
   ],
   "note": "Every type and value, any padding, abbreviated values. Arrays are printed last element first (refuted), so index order holds only for types without arrays of two or more elements. Values longer than their type overflow a subtraction and are outside the theorem."
  },
  {
   "property": "C35",
   "status": "partial",
   "theorems": [
    "C35_agrees_partial",
    "C35_total_partial",
    "C35_number_partial",
    "C35_wide_number_partial",
    "C35_negate_refuted",
    "C35_unsigned_refuted",
    "C35_wide_number_refuted",
    "C35_number_refuted",
    "C35_zero_width_refuted"
   ],
   "note": "Digits equal the hardware bits with the declared width, for all supported initial values, never panicking on signed arithmetic and aggregates; the number handed to simulations too. Excluded and refuted: negating the minimum (-(-128)+0), unsigned + and - (always panic), nested aggregates over 64 bits (upper bits lost)."
  },
  {
   "property": "C36",
   "status": "proved",
   "theorems": [
    "C36_named_accepted",
    "C36_named_result",
    "C36_order",
    "C36_named_errors",
    "C36_positional_accepted",
    "C36_positional_result",
    "C36_messages",
    "C36_patterns",
    "C36_patterns_accepted"
   ],
   "note": "Named and positional calls, turbofish defaults, named patterns; every enumeration order of the hash sets. Parameter names are assumed distinct (checked by visit_parameter_list)."
  },
  {
   "property": "C37",
   "status": "partial",
   "theorems": [
    "C37_round_trip_partial",
    "C37_print_injective_partial",
    "C37_complete_partial",
    "C37_unambiguous_partial",
    "C37_sound_partial",
    "C37_terminates_partial",
    "C37_grouping_partial",
    "C37_missing_comma_refuted",
    "C37_dollar_refuted",
    "C37_index_sign_refuted"
   ],
   "note": "Proved for the modelled expression grammar (literals, names, calls, methods, fields, indices, ranges, casts, prefix/binary/infix operators, tuples, arrays, blocks with one expression, if): round trip of printing and parsing, completeness and unambiguity of the grammar, soundness up to three tolerated spellings, termination, grouping by level. Missing: statements, match, inst, pipeline references, lambdas, turbofish, strings, comptime and error recovery. The refuted theorems show the tolerated spellings."
  },
  {
   "property": "C38",
   "status": "proved",
   "theorems": [
    "C38_exactly_once",
    "C38_never_twice",
    "C38_no_early_stop",
    "C38_distinct_names",
    "C38_results",
    "C38_same_order",
    "C38_deterministic",
    "C38_bounded",
    "C38_can_finish",
    "C38_text_refuted"
   ],
   "note": "what an instance asks for and how many results it gives are taken to depend on the instance only (lambda bodies are stored before they can be asked for); the numbers in the names of generic instances, and so the text, do depend on the interleaving (C38_text_refuted)"
  },
  {
   "property": "C39",
   "status": "proved",
   "theorems": [
    "C39_instances",
    "C39_hierarchy",
    "C39_signal_refuted"
   ],
   "note": "C39_signal_refuted is a neighbouring finding: an instance can have the name of a signal."
  },
  {
   "property": "C40",
   "status": "partial",
   "theorems": [
    "C40_exactly_once_partial",
    "C40_reported_partial",
    "C40_match_refuted",
    "C40_if_refuted",
    "C40_at_refuted"
   ],
   "note": "Every wire of every created value is used exactly once if the unit is accepted, for all units whose if/match results and scrutinees, casts, register clock/reset/initial operands and x @ p patterns carry no wires. Without that restriction the claim is false: a wire may be set and also be the value of match arms or if branches, and 'let q @ r = p' is accepted though neither is driven."
  },
  {
   "property": "C41",
   "status": "partial",
   "theorems": [
    "C41_exact",
    "C41_order",
    "C41_innermost_partial",
    "C41_innermost_refuted"
   ],
   "note": "Exactness and the full order are proved. Innermost first holds for nested spans with different starts and fails for spans with the same start (C41_innermost_refuted)."
  },
  {
   "property": "C42",
   "status": "partial",
   "theorems": [
    "C42_sound_partial",
    "C42_complete_partial",
    "C42_inputs_refuted",
    "C42_shared_numbers_refuted",
    "C42_one_to_one_refuted"
   ],
   "note": "Sound and complete for modules with equally many inputs whose variables are each defined once under their own number. The full statement is false: extra inputs, numbers shared by different names, and repeated definitions are refuted by example. Attributes and the inline flag are not compared by the code and not modelled."
  },
  {
   "property": "C43",
   "status": "proved",
   "theorems": [
    "C43_laws",
    "C43_meet",
    "C43_types",
    "C43_concrete_refuted"
   ],
   "note": "Commutative, associative, idempotent, greatest lower bound; C43_concrete_refuted shows the helper is_more_concrete_than is inverted."
  },
  {
   "property": "C44",
   "status": "proved",
   "theorems": [
    "C44_unique",
    "C44_wrap_refuted",
    "C44_clone_refuted",
    "C44_table"
   ],
   "note": "For up to 2^64 requests, after which the counter wraps (C44_wrap_refuted). Trackers obtained with make_clone are excluded, as its comment says (C44_clone_refuted); freezing and unfreezing the symbol table, which uses it, is proved safe (C44_table)."
  },
  {
   "property": "C45",
   "status": "partial",
   "theorems": [
    "C45_paths",
    "C45_read",
    "C45_write",
    "C45_backward",
    "C45_inverted_refuted",
    "C45_history_partial",
    "C45_history_refuted"
   ],
   "note": "Paths, reads, writes and backward ranges agree with the generated field accesses for ports whose type is a struct of structs, and a session of valid requests answers each as if it were the first. A field of an inverted struct port crashes (C45_inverted_refuted), and after a request for a missing field every later uncached request crashes (C45_history_refuted)."
  },
  {
   "property": "C46",
   "status": "proved",
   "theorems": [
    "C46_behaviour",
    "C46_units",
    "C46_names",
    "C46_no_instances",
    "C46_succeeds",
    "C46_types_refuted",
    "C46_recursion_refuted"
   ],
   "note": "any meaning of primitives and any statement order; types of inlined signals are lost and recursive inlining does not end (C46_*_refuted)"
  },
  {
   "property": "C47",
   "status": "partial",
   "theorems": [
    "C47_terminates",
    "C47_visible",
    "C47_direct",
    "C47_innermost",
    "C47_use",
    "C47_barriers",
    "C47_kind",
    "C47_scopes",
    "C47_unique",
    "C47_no_panic",
    "C47_deprecated",
    "C47_pub_lib_refuted",
    "C47_deprecated_use_refuted",
    "C47_super_at_root_refuted",
    "C47_trait_alias_refuted",
    "C47_try_refuted"
   ],
   "note": "Proved for every table. Missing: the five refuted corners; converse of C47_use; that every program's table meets namespaces_ok/deep_enough is assumed."
  },
  {
   "property": "C48",
   "status": "proved",
   "theorems": [
    "C48_gray",
    "C48_order",
    "C48_shown",
    "C48_count",
    "C48_arrives",
    "C48_room",
    "C48_reset",
    "C48_size_refuted",
    "C48_short_reset_refuted"
   ],
   "note": "proved for 2^W words, as stated; the two refuted theorems show that the size is not checked and that a one-edge reset is not enough"
  },
  {
   "property": "C49",
   "status": "proved",
   "theorems": [
    "C49_wide_values",
    "C49_wide_fresh",
    "C49_wide_reset",
    "C49_handshake_reset",
    "C49_handshake",
    "C49_handshake_all",
    "C49_short_reset_refuted",
    "C49_frequent_refuted",
    "C49_frequent_junk_refuted"
   ],
   "note": "as stated; the two refuted theorems show that a one-edge reset is not enough and that values given too often are lost"
  },
  {
   "property": "C50",
   "status": "proved",
   "theorems": [
    "C50_elements",
    "C50_map",
    "C50_zip",
    "C50_unzip",
    "C50_fold",
    "C50_reduce",
    "C50_all_any",
    "C50_unfold",
    "C50_concat_split",
    "C50_reversed",
    "C50_flatten",
    "C50_interleave",
    "C50_chunks",
    "C50_sliding_window",
    "C50_push_shift",
    "C50_minmax",
    "C50_abs",
    "C50_to_int",
    "C50_msb_lsb",
    "C50_interleave_uint",
    "C50_bytes",
    "C50_window",
    "C50_chunk_stream",
    "C50_fold_order_refuted",
    "C50_chunks_latency_refuted"
   ],
   "note": "List semantics of the array methods for all lengths and widths, arithmetic meaning of the number methods, stream outputs from every register state after one reset cycle. Two sentences of the documentation are refuted (nesting of fold, latency of chunks)."
  },
  {
   "property": "C51",
   "status": "proved",
   "theorems": [
    "C51_expressions",
    "C51_output",
    "C51_registers",
    "C51_assertions",
    "C51_accepted",
    "C51_refusals",
    "C51_single_driver",
    "C51_no_dangling"
   ],
   "note": "units after monomorphisation and the HIR passes; pipelines, memories, ports, inverted wires, undef and initial values are in other properties; types of patterns and indexing as C02/C03 allow; == and != on types without enums (C11); a value for a negative shift amount or divisor is not claimed"
  },
  {
   "property": "C52",
   "status": "partial",
   "theorems": [
    "C52_well_typed_partial",
    "C52_found",
    "C52_completion_partial",
    "C52_minus_one_refuted",
    "C52_turbofish_refuted",
    "C52_declared_at_refuted"
   ],
   "note": "Every completion of what the checker leaves for an accepted unit types every name, expression, pattern and statement by declarative rules (C52_well_typed_partial), it keeps the types found (C52_found), and completions exist whenever no constraint or requirement is left over (C52_completion_partial). Missing: methods, lambdas, pipelines, memories, dereferencing; three refuted cases (-1 : int<0>, type arguments that bypass bounds, declared names bound with @) are excluded by hypothesis; finiteness of the types found is a hypothesis of the completion."
  },
  {
   "property": "C53",
   "status": "partial",
   "theorems": [
    "C53_well_typed_partial",
    "C53_output_partial",
    "C53_same_unit"
   ],
   "note": "For units without type parameters and the features in TypingModel and ElabModel, provided every name is bound, no integer has zero bits, and types are those of C02, C03 and C11. Missing: calls of generic units, memories, ports, pipelines, initial values."
  },
  {
   "property": "C54",
   "status": "partial",
   "theorems": [
    "C54_chosen_partial",
    "C54_missing_partial",
    "C54_too_many_partial",
    "C54_decided",
    "C54_no_crash_partial",
    "C54_stable_partial",
    "C54_unify_partial",
    "C54_listed_partial",
    "C54_order_partial",
    "C54_repeated_refuted",
    "C54_order_refuted",
    "C54_alias_refuted",
    "C54_early_refuted",
    "C54_view_refuted"
   ],
   "note": "proved for targets without repeated parameters and without aliases, and receivers whose type inside the views is known; refuted without these; bounds and where clauses of blocks are not modelled"
  },
  {
   "property": "C55",
   "status": "proved",
   "theorems": [
    "C55_terminates",
    "C55_accepted",
    "C55_refused",
    "C55_program",
    "C55_order",
    "C55_finite",
    "C55_endless"
   ],
   "note": "A declaration stands for the types it is made of; the search takes pending names in any order. Spelling out is ElabModel's conc_of, in which aliases are not spelled out."
  },
  {
   "property": "C56",
   "status": "partial",
   "theorems": [
    "C56_modules_partial",
    "C56_plain_refuted",
    "C56_outer_refuted",
    "C56_unicode_refuted"
   ],
   "note": "Every schedule and program, provided names marked no_mangle clash neither with each other nor with units outside of all modules, and identifiers are ASCII; refuted without. Verilog keywords are not modelled."
  },
  {
   "property": "C57",
   "status": "partial",
   "theorems": [
    "C57_unit_partial",
    "C57_declared",
    "C57_lambda_name_refuted"
   ],
   "note": "Names by scope, shadowing, captures, declarations and lambdas as structs and units: same results for every depth of calls. Missing: programs that use the name Lambda (refuted), generic lambdas, pipeline lambdas."
  },
  {
   "property": "C58",
   "status": "partial",
   "theorems": [
    "C58_accepted",
    "C58_meanings",
    "C58_complete_partial",
    "C58_arguments",
    "C58_kind_refuted",
    "C58_bounds_refuted",
    "C58_copy_view_refuted",
    "C58_number_refuted",
    "C58_default_refuted",
    "C58_hidden_refuted",
    "C58_repeated_refuted"
   ],
   "note": "Soundness in full; the converse for signatures without const generic expressions and views of trait parameters (false beyond: refuted theorems). Kinds of units and bounds are not compared by the code."
  },
  {
   "property": "C59",
   "status": "partial",
   "theorems": [
    "C59_acyclic",
    "C59_program",
    "C59_reported",
    "C59_names",
    "C59_bounds_partial",
    "C59_parameter_refuted",
    "C59_self_refuted"
   ],
   "note": "Acyclicity, exactness of the cycle check, true reports and termination for every order are full. The bounds are exact by name always; with arguments only if supertraits do not use their trait's parameters or Self (C59_parameter_refuted, C59_self_refuted show the compiler panics there)."
  },
  {
   "property": "C60",
   "status": "partial",
   "theorems": [
    "C60_table",
    "C60_classes",
    "C60_longest",
    "C60_ends",
    "C60_tokens",
    "C60_number",
    "C60_number_total",
    "C60_names",
    "C60_bytes",
    "C60_char",
    "C60_writable_partial",
    "C60_comment_partial",
    "C60_unclosed_partial",
    "C60_line",
    "C60_octal_refuted",
    "C60_backslash_refuted",
    "C60_comment_refuted",
    "C60_path"
   ],
   "note": "Longest match, round trip, numbers, names and byte literals in full, line comments too; block comments without quotes and //, for which it is false (C60_comment_refuted). Octal widths and the backslash in byte strings are refuted. Logos itself is modelled as longest match with priorities. Paths written without blanks are read as their names with :: between them (C60_path)."
  },
  {
   "property": "C61",
   "status": "partial",
   "theorems": [
    "C61_types",
    "C61_specs",
    "C61_params",
    "C61_patterns",
    "C61_use",
    "C61_heads",
    "C61_sound",
    "C61_terminates",
    "C61_settled",
    "C61_unambiguous",
    "C61_trailing_refuted",
    "C61_sign_refuted",
    "C61_impl_refuted",
    "C61_self_refuted",
    "C61_attributes_refuted",
    "C61_equals_refuted"
   ],
   "note": "All of types, traits, type parameters, patterns, use trees and heads of units without where clauses. Partial because the converse holds up to the tolerated spellings, each shown by a refuted theorem; statements, items and where clauses are not modelled."
  },
  {
   "property": "C62",
   "status": "partial",
   "theorems": [
    "C62_sound",
    "C62_data_copy",
    "C62_complete",
    "C62_reported",
    "C62_terminates",
    "C62_view_refuted",
    "C62_member_refuted",
    "C62_phantom_refuted",
    "C62_written_refuted"
   ],
   "note": "Soundness for all programs and closed types, without impls written by hand; completeness up to unused arguments, views, wide tuples and aliases. Refuted: views, members, phantom parameters, impls written by hand."
  },
  {
   "property": "C63",
   "status": "partial",
   "theorems": [
    "C63_runs",
    "C63_meaning",
    "C63_terminates",
    "C63_heads",
    "C63_position",
    "C63_path_refuted",
    "C63_let_refuted"
   ],
   "note": "For all bodies, nestings and values of the conditions. Statements and expressions are otherwise opaque; that handing inputs on to an inlined unit changes nothing is the meaning of [runs]. Refuted: paths of the two generated units, the wording of the error message."
  },
  {
   "property": "C64",
   "status": "partial",
   "theorems": [
    "C64_stages",
    "C64_counts",
    "C64_count_reported",
    "C64_inout",
    "C64_inout_reported",
    "C64_bits",
    "C64_sizes",
    "C64_arms",
    "C64_size_reported",
    "C64_passes",
    "C64_negative_refuted",
    "C64_match_refuted",
    "C64_tuple_refuted"
   ],
   "note": "Writing out registers, both checks and their reports are exact for all bodies and types. Partial because the check of inout looks only at the outermost type and at let and reg (C64_match_refuted, C64_tuple_refuted), and a negative count is an internal error (C64_negative_refuted)."
  },
  {
   "property": "C65",
   "status": "partial",
   "theorems": [
    "C65_stream",
    "C65_call",
    "C65_unmatched",
    "C65_pattern",
    "C65_pattern_only",
    "C65_unambiguous",
    "C65_rules",
    "C65_rules_only",
    "C65_include",
    "C65_stable",
    "C65_bytes",
    "C65_own",
    "C65_unclosed_refuted",
    "C65_left_refuted",
    "C65_cycle_refuted",
    "C65_root_refuted"
   ],
   "note": "Proved for all token lists, patterns, definitions and file systems. Refuted parts: unclosed macros make the parser run for ever (C65_unclosed_refuted), text after an included expression is dropped (C65_left_refuted), a self-including file never ends (C65_cycle_refuted), include of the root directory crashes (C65_root_refuted)."
  },
  {
   "property": "C66",
   "status": "partial",
   "theorems": [
    "C66_ends",
    "C66_block",
    "C66_neat",
    "C66_unambiguous",
    "C66_errors_kept",
    "C66_resumes",
    "C66_missing_semicolon",
    "C66_file",
    "C66_condition_refuted",
    "C66_marker_attributes_refuted",
    "C66_visibility_refuted",
    "C66_lost_refuted",
    "C66_dangling_refuted"
   ],
   "note": "Exact for blocks and files whose expressions, patterns, types and items are single tokens; five ways in which text is dropped without a message are shown as counterexamples (conditions of plain registers, attributes of reg markers, pub before expressions and braces, the value in { x pub }, attributes at the end of a file). Resuming after an error is proved for fifteen ways a statement can go wrong; errors inside expressions are not modelled."
  },
  {
   "property": "C67",
   "status": "partial",
   "theorems": [
    "C67_input",
    "C67_output",
    "C67_wire",
    "C67_fields",
    "C67_declared_partial",
    "C67_declared_refuted",
    "C67_class_names_refuted",
    "C67_value_partial"
   ],
   "note": "Setting and reading ports is exact for all widths. Classes are all declared only if every field has bits, and their names may coincide: both shown as counterexamples."
  },
  {
   "property": "C68",
   "status": "partial",
   "theorems": [
    "C68_taken",
    "C68_as_written",
    "C68_refused",
    "C68_list",
    "C68_quoted_refuted",
    "C68_commas_refuted",
    "C68_trailing_refuted",
    "C68_names_refuted",
    "C68_lexed"
   ],
   "note": "C68_taken, C68_as_written, C68_refused and C68_list hold for every argument, list and lexer; C68_lexed is C68_as_written with the lexer of C60, for paths of any names that are no keywords. Refuted of the code: the message always quotes the wrong part (C68_quoted_refuted), the number of commas said is right (C68_commas_refuted), a trailing :: is refused (C68_trailing_refuted), any file can be named (C68_names_refuted). Not modelled: clap, serde, opening files."
  }
 ]
}