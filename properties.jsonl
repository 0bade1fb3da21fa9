{"id": "C01", "title": "Tuple and struct fields read back what was stored", "statement": "For every tuple or struct type, the hardware vector built by a tuple/struct construction has exactly the type's size, and reading field i of it yields exactly the bits that were supplied for field i, including zero-width fields and one-bit aggregates.", "quantifier": "all type lists, all field indices, all (four-state) field values", "why_tests_cant": "field widths are unbounded naturals nested arbitrarily; the code has four separate index cases (zero-width, whole, single bit, range) whose boundaries depend on sums of widths", "anchors": ["spade-mir/src/codegen/mod.rs:compute_tuple_index", "spade-mir/src/codegen/mod.rs:forward_expression_code ConstructTuple/IndexTuple", "spade-mir/src/types.rs:Type::size", "spade-mir/src/codegen/util.rs:TupleIndex"]}
{"id": "C02", "title": "Array elements and slices read back what was stored", "statement": "For every array length and element width, indexing element i of a constructed array returns the i-th element, and a range index start..end returns the array of elements start..end-1, with the same layout as constructing that sub-array directly.", "quantifier": "all lengths, element widths, indices and ranges in bounds, all element values", "why_tests_cant": "lengths and widths are unbounded and the generated slices are arithmetic in both", "anchors": ["spade-mir/src/codegen/mod.rs:forward_expression_code ConstructArray/IndexArray/RangeIndexArray"]}
{"id": "C03", "title": "Enum values remember their variant and payload", "statement": "After constructing variant v with given payload, the is-variant test is true for v and false for every other variant, and reading each payload member back returns the value supplied.", "quantifier": "all enum shapes (number of variants, payload types), all variants, members and payload values, any padding", "why_tests_cant": "tag width is ilog2 of the next power of two of the variant count, payload offsets depend on all member widths; special cases for zero and one bit", "anchors": ["spade-mir/src/codegen/mod.rs:ConstructEnum/IsEnumVariant/EnumMember", "spade-mir/src/enum_util.rs:tag_size"]}
{"id": "C04", "title": "Addition, subtraction and multiplication do not overflow", "statement": "With the result widths type inference imposes (N+1 for + and -, N+M for *), the emitted hardware computes the exact mathematical result for signed operands and for unsigned + and *; unsigned - is exact when the result is non-negative.", "quantifier": "all widths and all operand values", "why_tests_cant": "widths unbounded; correctness depends on Verilog context-determined sizing and signedness rules", "anchors": ["spade-mir/src/codegen/mod.rs:forward_expression_code Add/Sub/Mul", "spade-typeinference/src/expression.rs:visit_binary_operator"]}
{"id": "C05", "title": "Comparisons compute the mathematical relation", "statement": "<, <=, >, >=, ==, != on int and uint of any width, including width zero, yield the truth value of the mathematical relation between the represented numbers.", "quantifier": "all widths, all operand pairs", "why_tests_cant": "all pairs at all widths cannot be enumerated; signedness is decided per operator", "anchors": ["spade-mir/src/codegen/mod.rs:forward_expression_code Eq..Le", "spade-hir-lowering/src/lib.rs:handle_comparison_op"]}
{"id": "C06", "title": "Width conversions preserve or truncate the number as documented", "statement": "zext preserves an unsigned value, sext preserves a signed value, trunc keeps the value modulo 2^N, concat places its left operand in the high bits; division and modulo by a constant power of two truncate towards zero.", "quantifier": "all source/target widths allowed by the checks, all values", "why_tests_cant": "unbounded widths; three emitted shapes depending on the number of extra bits", "anchors": ["spade-mir/src/codegen/mod.rs:Truncate/SignExtend/ZeroExtend/Concat/Div/Mod", "spade-hir-lowering/src/lib.rs:handle_trunc/handle_sext/handle_zext"]}
{"id": "C07", "title": "div_pow2 rounds as documented", "statement": "div_pow2(x, pow) is x / 2^pow rounded towards positive infinity as its documentation says (or towards zero as the code comment says).", "quantifier": "all widths, dividends and exponents", "why_tests_cant": "documented rounding must hold for every dividend, tests only cover the emitted text", "anchors": ["spade-mir/src/codegen/mod.rs:DivPow2", "spade-compiler/stdlib/ops.spade:div_pow2"]}
{"id": "C08", "title": "Integer literals denote their value", "statement": "A constant statement of int or uint type of any width defines a hardware constant that represents the literal modulo 2^width (its exact value when in range), for both the unsized and the sized literal spelling.", "quantifier": "all widths and all integer literals in range", "why_tests_cant": "there is a switch of spelling at 32 bits; values unbounded", "anchors": ["spade-mir/src/codegen/mod.rs:statement_declaration Constant"]}
{"id": "C09", "title": "match picks the first arm whose condition holds", "statement": "The emitted priority case yields the result of the first arm whose condition is true, for any number of arms; it is undefined only if no condition is true.", "quantifier": "all numbers of arms, all condition vectors, all arm values", "why_tests_cant": "number of arms unbounded; patterns are generated strings of wildcards", "anchors": ["spade-mir/src/codegen/mod.rs:forward_expression_code Match"]}
{"id": "C10", "title": "Generated code never bit-selects a scalar", "statement": "Every bit-select or part-select in generated code is applied to a signal declared as a vector and stays within its declared range.", "quantifier": "all types and operators on well-typed operands", "why_tests_cant": "one-bit corner cases appear only for particular width combinations", "anchors": ["spade-mir/src/codegen/mod.rs:forward_expression_code", "spade-mir/src/codegen/mod.rs:compute_tuple_index", "spade-mir/src/verilog.rs:size_spec"]}
{"id": "C11", "title": "== on arrays and tuples is element-wise equality", "statement": "For types that implement equality, comparing two arrays is true exactly when all elements are equal.", "quantifier": "all element types with equality, all lengths, all values", "why_tests_cant": "holds or fails depending on bit patterns of unused payload bits", "anchors": ["spade-compiler/core/ops.spade:PartialEq for [T; N]", "spade-hir-lowering/src/lib.rs:handle_eqne", "spade-mir/src/codegen/mod.rs:Eq"]}
{"id": "C12", "title": "Clocked memories store what the write ports write", "statement": "On each clock edge every address written by an enabled write port holds the value written by the highest-numbered such port; every other address is unchanged; the port fields are decoded exactly as the write-port tuple was constructed.", "quantifier": "all address widths, data widths, numbers of ports, all histories of writes", "why_tests_cant": "histories and widths are unbounded", "anchors": ["spade-mir/src/codegen/mod.rs:DeclClockedMemory", "spade-compiler/stdlib/mem.spade"]}
{"id": "C13", "title": "inv wires in aggregates are routed to their own field", "statement": "Driving field i (or element i, or slice) of an aggregate of inverted wires drives exactly the bits of the wire that field was constructed from.", "quantifier": "all aggregate shapes, all indices and values", "why_tests_cant": "backward layout is a second, separate copy of the layout code", "anchors": ["spade-mir/src/codegen/mod.rs:backward_expression_code", "spade-mir/src/types.rs:backward_size"]}
{"id": "C14", "title": "Pattern matching hardware agrees with pattern semantics", "statement": "For every well-typed pattern and value, the generated condition is true exactly when the pattern matches the value (and its guard holds), and when it matches, every variable bound by the pattern gets the corresponding sub-value.", "quantifier": "all patterns (integers, bools, tuples, arrays, structs, enums, nested bindings), all values", "why_tests_cant": "patterns nest without bound", "anchors": ["spade-hir-lowering/src/lib.rs:PatternLocal::condition", "spade-hir-lowering/src/lib.rs:lower_no_initial_binding", "spade-hir-lowering/src/lib.rs:all_conditions"]}
{"id": "C15", "title": "An accepted match covers every value", "statement": "If the exhaustiveness check accepts a match, then every value of the scrutinee type is matched by some unguarded arm.", "quantifier": "all types, all lists of patterns, all values of the type", "why_tests_cant": "quantifies over all values of all types; recursion on the pattern matrix", "anchors": ["spade-hir-lowering/src/usefulness.rs:is_useful", "spade-hir-lowering/src/pattern.rs:DeconstructedPattern", "spade-hir-lowering/src/lib.rs:ExprKind::Match"]}
{"id": "C16", "title": "A rejected match really misses a value", "statement": "If the exhaustiveness check rejects a match, each reported witness describes at least one value of the scrutinee type matched by no unguarded arm.", "quantifier": "all types, all lists of patterns", "why_tests_cant": "as C15, for the converse direction", "anchors": ["spade-hir-lowering/src/usefulness.rs:Witness", "spade-hir-lowering/src/usefulness.rs:is_useful"]}
{"id": "C17", "title": "A variable used k stages later is delayed by exactly k clock cycles", "statement": "In a pipeline without stalls, the value read for a variable in stage s is the value it had s - d cycles earlier, where d is the stage in which it became available; wires and zero-sized values are not delayed.", "quantifier": "all pipelines (sequences of definitions and stage markers), all stages, all input histories, all times", "why_tests_cant": "histories and stage counts are unbounded", "anchors": ["spade-hir-lowering/src/substitution.rs:Substitutions", "spade-hir-lowering/src/pipelines.rs:handle_statement"]}
{"id": "C18", "title": "A stalled pipeline stage holds its contents, and stalls propagate upstream", "statement": "stage.ready of stage i is the conjunction of the conditions of stage i and all later stages; when it is false every register into the next stage keeps its value, when true they all advance together.", "quantifier": "all pipelines with any placement of conditions, all condition histories", "why_tests_cant": "conditions vary per cycle without bound", "anchors": ["spade-hir-lowering/src/pipelines.rs:lower_pipeline"]}
{"id": "C19", "title": "stage.valid neither loses, duplicates nor reorders items", "statement": "For every history of stall conditions, the sequence of items seen with valid=true at stage i+1 is a delayed copy of the accepted sequence at stage i: nothing is lost, duplicated or reordered, and bubbles are marked invalid.", "quantifier": "all pipeline lengths, all condition histories, all times", "why_tests_cant": "every schedule of stalls must be covered", "anchors": ["spade-hir-lowering/src/pipelines.rs:lower_pipeline valid_signals", "spade-hir-lowering/src/pipelines.rs:constexpr_and/constexpr_select/constexpr_inv"]}
{"id": "C20", "title": "The computed availability of an expression is its real latency", "statement": "If the compiler accepts an expression in a pipeline with availability d, the expression's value at time t is the combinational value of its inputs at time t-d.", "quantifier": "all expressions, all input histories", "why_tests_cant": "expressions nest without bound; latency errors show up only over time", "anchors": ["spade-hir-lowering/src/pipelines.rs:available_in", "spade-hir-lowering/src/pipelines.rs:try_compute_availability"]}
{"id": "C21", "title": "Alias flattening preserves behaviour", "statement": "Removing alias bindings before code generation does not change any value observable at the inputs, outputs or named signals, in any cycle.", "quantifier": "all modules, all alias graphs, all input histories", "why_tests_cant": "graph shapes and histories are unbounded", "anchors": ["spade-mir/src/aliasing.rs:flatten_aliases"]}
{"id": "C22", "title": "Predictable renaming keeps distinct variables distinct", "statement": "Renaming local variables to predictable names maps different variables to different emitted identifiers, is independent of the original numeric ids, and preserves behaviour.", "quantifier": "all modules, all id assignments", "why_tests_cant": "collisions depend on user-chosen identifiers", "anchors": ["spade-mir/src/renaming.rs:make_names_predictable", "spade-mir/src/renaming.rs:NameState", "spade-mir/src/codegen/util.rs:var_name"]}
{"id": "C23", "title": "De-duplicating mutable wires preserves behaviour", "statement": "Merging duplicate reads of the same inverted wire leaves exactly one driver and preserves forward values.", "quantifier": "all statement lists", "why_tests_cant": "the pass iterates to a fixpoint", "anchors": ["spade-mir/src/passes/deduplicate_mut_wires.rs"]}
{"id": "C24", "title": "Splitting compound registers preserves behaviour", "statement": "Splitting a register of tuple, struct or array type into one register per member does not change its value in any cycle, with or without reset.", "quantifier": "all types, all value, clock and reset histories", "why_tests_cant": "histories unbounded, types nest", "anchors": ["spade-mir/src/passes/split_compound_regs.rs"]}
{"id": "C25", "title": "Automatic clock gating preserves behaviour", "statement": "Gating an Option-like register changes its value in no cycle except possibly the payload bits of the empty variant.", "quantifier": "all payload types, all value histories, all times", "why_tests_cant": "histories unbounded", "anchors": ["spade-mir/src/passes/auto_clock_gating.rs"]}
{"id": "C26", "title": "A rolled-back inference attempt leaves no trace", "statement": "Checkpoint, any sequence of type equations and lookups, then restore leaves every later type lookup unchanged; lookups themselves never change what later lookups return.", "quantifier": "all sequences of checkpoint / insert / lookup / restore", "why_tests_cant": "histories of operations are unbounded; lookups mutate the table", "anchors": ["spade-typeinference/src/replacement.rs:ReplacementStack", "spade-typeinference/src/lib.rs:checkpoint/restore/ensure_impls"]}
{"id": "C27", "title": "Successful unification makes the two types equal", "statement": "After unifying two types without error, both resolve to the same type, and types that were equal before stay equal.", "quantifier": "all type terms, all prior unification states", "why_tests_cant": "type terms and prior states are unbounded", "anchors": ["spade-typeinference/src/lib.rs:unify_inner"]}
{"id": "C28", "title": "Unification only fails when the types cannot be made equal", "statement": "If there is any assignment of the unknown types under which the two types are equal and which satisfies the earlier equations, unification succeeds and does not rule that assignment out.", "quantifier": "all type terms, all prior states, all assignments", "why_tests_cant": "universal over assignments", "anchors": ["spade-typeinference/src/lib.rs:unify_inner"]}
{"id": "C29", "title": "Unification never creates an infinite type", "statement": "A state reached through successful unifications contains no type that contains itself, so resolving a type terminates.", "quantifier": "all unification histories", "why_tests_cant": "cycles arise only from particular long histories", "anchors": ["spade-typeinference/src/lib.rs:check_type_for_recursion"]}
{"id": "C30", "title": "Inferred type-level numbers satisfy their equations", "statement": "Whenever constraint solving replaces an unknown size by a number, that number is the value of the constraint expression under every completion of the remaining unknowns, and solving order does not matter.", "quantifier": "all constraint expressions, all environments", "why_tests_cant": "expressions nest without bound", "anchors": ["spade-typeinference/src/constraints.rs:ConstraintExpr::evaluate"]}
{"id": "C31", "title": "Inferred integer widths are the smallest that fit", "statement": "The number of bits computed for a signed or unsigned type-level integer is the smallest width that can represent it.", "quantifier": "all integers", "why_tests_cant": "all integers", "anchors": ["spade-typeinference/src/constraints.rs:IntBitsToRepresent/UintBitsToRepresent"]}
{"id": "C32", "title": "Two implementations of a trait never apply to the same type", "statement": "If the compiler accepts a set of impl blocks, no concrete type and trait arguments are instances of two of them.", "quantifier": "all sequences of impl registrations, all concrete types", "why_tests_cant": "all instantiations of generic impls", "anchors": ["spade-hir/src/impl_tab.rs:ImplTab::insert", "spade-hir/src/impl_tab.rs:type_specs_overlap"]}
{"id": "C33", "title": "Waveform translation shows the right number", "statement": "For any bit vector without X or Z, the signed and unsigned translations are the two's complement and binary values; with X or Z they report it.", "quantifier": "all vectors of all lengths", "why_tests_cant": "chunking at 64 bits, sign handling by inversion", "anchors": ["vcd-translate/src/translation.rs:translate_uint", "vcd-translate/src/translation.rs:translate_signed_int"]}
{"id": "C34", "title": "Waveform translation agrees with the hardware layout", "statement": "Translating the bits of a value of any type prints that value: field by field, variant by variant, and array elements in index order.", "quantifier": "all types, all values", "why_tests_cant": "types nest without bound and two independently written layouts must agree", "anchors": ["vcd-translate/src/translation.rs:inner_translate_value", "spade-mir/src/codegen/mod.rs:forward_expression_code"]}
{"id": "C35", "title": "Compile-time initial values agree with run-time values", "statement": "The bit string computed at compile time for an initial value equals the bits the hardware would compute for the same expression, and has the declared width.", "quantifier": "all supported constant expressions, all widths", "why_tests_cant": "widths and nesting unbounded", "anchors": ["spade-mir/src/eval.rs:eval_statements", "spade-mir/src/eval.rs:Value::as_string"]}
{"id": "C36", "title": "Named arguments are matched to the right parameters", "statement": "A call with named arguments is accepted exactly when each parameter without default is named once and no unknown or repeated name occurs; the result lists every parameter once in declaration order with the right value, whatever order the arguments were written in; positional calls pair by position.", "quantifier": "all parameter lists with distinct names, all argument lists, all hash-map iteration orders", "why_tests_cant": "permutations and defaults are unbounded; iteration order of a hash set is unspecified", "anchors": ["spade-hir/src/param_util.rs:match_args_with_params"]}
{"id": "C37", "title": "Operator expressions parse by precedence and associativity", "statement": "Parsing the tokens of an expression printed with parentheses only where precedence and left associativity need them gives back that expression; hence every token sequence has at most the one standard reading.", "quantifier": "all expression trees over all operators", "why_tests_cant": "expression trees are unbounded; precedence bugs need particular combinations", "anchors": ["spade-parser/src/expression.rs:expr_bp", "spade-parser/src/expression.rs:binop_binding_power"]}
{"id": "C38", "title": "Parallel monomorphisation compiles every needed instance exactly once", "statement": "Under every interleaving of worker threads, when compilation ends every requested instance has been compiled exactly once, the work loop does not stop early, and the order of the results is the same.", "quantifier": "all programs (request graphs), all schedules, any number of workers", "why_tests_cant": "schedules cannot be enumerated", "anchors": ["spade-hir-lowering/src/monomorphisation.rs:MonoState", "spade-hir-lowering/src/monomorphisation.rs:compile_items"]}
{"id": "C39", "title": "Instance names are unique inside a module", "statement": "All instances created in a module get different names, and the instance map sends each name to the unit it instantiates.", "quantifier": "all sequences of instantiations with arbitrary requested names", "why_tests_cant": "requested names may themselves look like generated names", "anchors": ["spade-mir/src/unit_name.rs:InstanceNameTracker::use_name"]}
{"id": "C40", "title": "A linear value is consumed exactly once", "statement": "If the linear check accepts a unit, every inverted or inout wire that is created is used exactly once on that path; a second use or a missing use is reported.", "quantifier": "all statement sequences, aggregate types and field accesses", "why_tests_cant": "usage patterns on nested aggregates are unbounded", "anchors": ["spade-hir-lowering/src/linear_check/linear_state.rs", "spade-hir-lowering/src/linear_check/mod.rs"]}
{"id": "C41", "title": "Location lookup returns the enclosing things, innermost first", "statement": "Looking up a location returns exactly the recorded values whose span encloses it in the same file.", "quantifier": "all insertion histories, all queries", "why_tests_cant": "histories unbounded; ordered-map range queries", "anchors": ["spade-common/src/loc_map.rs:LocMap"]}
{"id": "C42", "title": "MIR comparison accepts only modules equal up to renaming", "statement": "If the comparison says two modules are the same, there is a one-to-one renaming of variables turning one into the other.", "quantifier": "all pairs of modules", "why_tests_cant": "all pairs of modules", "anchors": ["spade-mir/src/diff.rs:compare_entity", "spade-mir/src/diff.rs:VarMap"]}
{"id": "C43", "title": "Type-level meta kinds form a consistent order", "statement": "Unifying meta kinds is commutative, associative and idempotent, yields a kind at least as concrete as both, and fails only when no kind is.", "quantifier": "all meta kinds", "why_tests_cant": "small but order-dependent; composition over arbitrarily long chains", "anchors": ["spade-types/src/meta_types.rs:unify_meta", "spade-types/src/meta_types.rs:MetaType::is_more_concrete_than"]}
{"id": "C44", "title": "Identifiers handed out are never repeated", "statement": "Under every interleaving of threads sharing an id tracker, no two requests get the same id.", "quantifier": "all schedules, any number of threads and requests", "why_tests_cant": "schedules cannot be enumerated", "anchors": ["spade-common/src/id_tracker.rs"]}
{"id": "C45", "title": "Simulation field references address the field's own bits", "statement": "The bit range computed for a (nested) struct field in the simulation API is exactly the range of bits the hardware layout gives to that field, and the downto conversion selects the same bits.", "quantifier": "all struct types, all field paths", "why_tests_cant": "nesting unbounded", "anchors": ["spade-simulation-ext/src/lib.rs:get_range", "spade-simulation-ext/src/range.rs:UptoRange::as_downto"]}
{"id": "C46", "title": "Inlining units changes nothing observable", "statement": "Replacing every instance of an `#[inline]` unit by its body keeps the inputs, output and asserted conditions of every remaining unit, in every execution; no name is captured or defined twice, no instance of an inlined unit is left, and inlining ends whenever no inlined unit contains itself.", "quantifier": "all sets of units, all nestings of inlined units, all executions, all meanings of the primitive operators", "why_tests_cant": "nesting depth, number of instances and executions are unbounded", "anchors": ["spade-hir-lowering/src/inline.rs:do_inlining", "spade-hir-lowering/src/inline.rs:perform_inlining", "spade-hir-lowering/src/inline.rs:InlinedStatements::finalize"]}
{"id": "C47", "title": "A name means one item, found by scope, visibility and alias rules", "statement": "Looking up a path gives the item one reaches from the innermost scope (or from lib, self, super or the root) by going down the path; every item used may be used from there; a `use` means what its target means where it was written; a capture barrier in between refuses the item; work inside scopes that have been closed leaves no trace; no declaration replaces another; lookups end whatever cycles the aliases form, and do not panic.", "quantifier": "all symbol tables, all paths, all alias graphs including cycles, all histories of scopes and declarations", "why_tests_cant": "alias graphs, nesting depth and histories are unbounded", "anchors": ["spade-hir/src/symbol_table.rs:SymbolTable::canonicalize_in_namespace", "spade-hir/src/symbol_table.rs:lookup_id_in_namespace", "spade-hir/src/symbol_table.rs:add_unique_thing", "spade-common/src/name.rs:Path"]}
{"id": "C48", "title": "The cross-domain fifo loses, doubles and reorders nothing", "statement": "With as many words as addresses, the values taken out of the standard library's cross-domain fifo are the values accepted into it, in the same order, with at most one less than the number of words still inside; the value shown is the oldest one inside, the count never says more than there is; what was put in is shown, and room made is seen, after a fixed number of edges of the clocks; a long enough reset of both sides empties it from every state. Gray code decodes to what was encoded, and one step of a counter changes one bit.", "quantifier": "all address widths, all element types, all interleavings of the edges of two clocks with every outcome of sampling during a coincident edge, all offers and acknowledgements, all lengths of time", "why_tests_cant": "clock interleavings, sampling outcomes and histories are unbounded", "anchors": ["spade-compiler/stdlib/mem.spade:fifo", "spade-compiler/stdlib/cdc.spade:sync_uint_counter", "spade-compiler/stdlib/num.spade:to_gray", "spade-compiler/stdlib/num.spade:GrayCode::to_uint"]}
{"id": "C49", "title": "Values cross clock domains whole, in order and without duplicates", "statement": "With the standard library's sync_wide every output is the initial value or a value given at an earlier edge of the source clock, never a mixture of two, and outputs never go back in time; the output is newer than any moment after three turns of both clocks. With handshake, values given with time to settle in between are each received in exactly one destination cycle, once and in order. A reset of a few edges of each clock brings both to their initial state from every state.", "quantifier": "all value types, all interleavings of the edges of two clocks with every outcome of sampling during a coincident edge, all histories of inputs", "why_tests_cant": "clock interleavings, sampling outcomes and histories are unbounded", "anchors": ["spade-compiler/stdlib/cdc.spade:sync_wide", "spade-compiler/stdlib/cdc.spade:handshake", "spade-compiler/stdlib/cdc.spade:sync2_bool"]}
{"id": "C50", "title": "Array, number and stream methods compute what they say", "statement": "For arrays of every length and element width, the standard library's map, zip, unzip, fold, reduce, all, any, concat, split, reversed, flatten, interleave, chunks, sliding_window, push, shift, first, last and unfold give the elements the list operations of the same name give; the byte orders, absolute value, minimum, maximum, order, bit interleaving, first and last bit of numbers of every width have their arithmetic meaning; the windows and chunks of a stream of options are the latest values given since the reset, whatever the registers held before.", "quantifier": "all lengths, element widths, element functions and contents; all number widths; all input histories", "why_tests_cant": "recursion over type-level lengths, widths and histories are unbounded", "anchors": ["spade-compiler/stdlib/array.spade", "spade-compiler/stdlib/num.spade", "spade-compiler/stdlib/conv.spade:to_le_bytes/to_be_bytes/to_german_endian_bytes", "spade-compiler/stdlib/option.spade:padded_sliding_window/chunks"]}
{"id": "C51", "title": "A compiled unit computes what its source says", "statement": "For a well-typed program of units made of names, literals, operators, tuples, structs, enums, arrays, indexing, blocks, let, if, match with guards, registers with resets, assertions, calls of the special functions and of other units: in every execution of the hardware, every expression of every instance carries, in every instant, the value the source gives it, so the output of the top unit does; every assertion watches its condition; a program that divides only by literal powers of two and whose matches cover all values is compiled and others are refused up to C15; each signal has one driver and none that is read lacks one.", "quantifier": "all well-typed programs of any number of units and nesting, all instances, all executions and instants", "why_tests_cant": "programs, nesting, widths and histories are unbounded", "anchors": ["spade-hir-lowering/src/lib.rs:ExprLocal::lower", "spade-hir-lowering/src/lib.rs:StatementLocal::lower", "spade-hir-lowering/src/lib.rs:handle_call", "spade-hir-lowering/src/lib.rs:generate_unit"]}
{"id": "C52", "title": "Units the type checker accepts are well typed", "statement": "When the type checker accepts a unit, the types it records make the whole unit well typed: every name has one type, every literal a number type that has its value, operands and results the widths of the operator's rule, calls the types of the parameters and result of the function under one choice of its type parameters that meets their kinds, bounds and where clauses, patterns the type of what they match, registers one type for value, reset and initial value, indices the width of the array, ranges within it.", "quantifier": "all units of any nesting, all functions and types around them, all completions of the types left open", "why_tests_cant": "programs and nesting are unbounded; rules interact through unification", "anchors": ["spade-typeinference/src/lib.rs:visit_unit", "spade-typeinference/src/lib.rs:visit_pattern", "spade-typeinference/src/lib.rs:visit_statement", "spade-typeinference/src/lib.rs:create_generic_list", "spade-typeinference/src/lib.rs:handle_function_like", "spade-typeinference/src/expression.rs", "spade-typeinference/src/requirements.rs"]}
{"id": "C53", "title": "Checked programs compile to hardware that computes them", "statement": "When the type checker accepts every unit of a program and lowering compiles it with the types found, the hardware shows on the output of the top unit, at every instant, the value the source gives to its body.", "quantifier": "all programs of any size and nesting that pass the checker and lower, all completions of the types left open, all inputs and starting values, all instants", "why_tests_cant": "joins two stages over unbounded programs and runs", "anchors": ["spade-typeinference/src/lib.rs:visit_unit", "spade-typeinference/src/mir_type_lowering.rs", "spade-hir-lowering/src/lib.rs:generate_unit", "spade-mir/src/codegen.rs"]}
{"id": "C54", "title": "A method call means the one method its receiver's type has", "statement": "When a method is chosen for a call, it is one of an impl block for the receiver's type without its views, whatever the unknown parts of that type turn out to be; no other block for it has the method, unless the chosen one belongs to no trait; and the receiver gets the views the method wants. A call is refused as missing only if no block can apply and as ambiguous only if two do; known types are always decided, a decision never changes as more is learnt, and does not depend on the order of the blocks.", "quantifier": "all sets of impl blocks, all receiver types with or without unknown parts, all inference states and all later ones", "why_tests_cant": "blocks and types nest without bound; answers must hold for every completion and order", "anchors": ["spade-typeinference/src/method_resolution.rs:select_method", "spade-typeinference/src/method_resolution.rs:spec_is_overlapping", "spade-typeinference/src/method_resolution.rs:methods_for_type", "spade-hir-lowering/src/passes/lower_methods.rs"]}
{"id": "C55", "title": "Types are finite", "statement": "A type declaration is refused exactly when the type contains itself, by way of any number of other declarations, type arguments, tuples, arrays, views and aliases; the error then names a true cycle. The check always ends, and neither the order of the declarations nor the order names are looked at decides whether a program is refused. Every type built from accepted declarations can be spelled out in a fixed number of nested steps, and one that contains itself never could.", "quantifier": "all sets of type declarations of any size, all orders of declarations and of the search, all types over them", "why_tests_cant": "A search through a hash set without a list of visited names: that it ends depends on the graph of all declarations accepted so far, and tests only show small graphs in the order one run happens to take.", "anchors": ["spade-ast-lowering/src/global_symbols.rs re_visit_type_declaration, add_type_spec_name_ids_to_graph", "spade-hir-lowering/src/monomorphisation.rs", "spade-typeinference/src/mir_type_lowering.rs type_decl_to_concrete"]}
{"id": "C56", "title": "Every module has a name of its own", "statement": "For every program and every schedule of the compiler's threads, each instance that is needed becomes one Verilog module, its name is an identifier Verilog allows and differs from that of every other module, and each instantiation in a module names the module of exactly the instance the source asks for, or the extern module it is, which no module of the program hides.", "quantifier": "all programs, all paths of modules, impl blocks and type-level branches, all schedules", "why_tests_cant": "Names are built from paths, numbers handed out under a lock by many threads, and names the author chose; that none of the infinitely many combinations coincide is a statement about all strings and all schedules.", "anchors": ["spade-hir-lowering/src/lib.rs UnitNameExt::as_mir", "spade-hir-lowering/src/monomorphisation.rs request_compilation", "spade-mir/src/unit_name.rs as_verilog", "spade-ast-lowering/src/lib.rs visit_unit", "spade-ast-lowering/src/type_level_if.rs expand_type_level_if", "spade-common/src/name.rs Path"]}
{"id": "C57", "title": "Names and lambdas mean what the source says", "statement": "In an accepted unit every use of a name gets the value of the nearest binding around it made before it, also inside lambdas however nested, and whatever is bound again between a lambda and its call: compiled without names and closures, a unit gives the results and register inputs its source gives, for all inputs, register values and depths of calls. Every name declared ahead is defined exactly once, in its block.", "quantifier": "all units of any nesting of blocks, matches and lambdas, all shadowings, all values and depths of calls", "why_tests_cant": "Captures depend on arbitrary nesting and shadowing; the names are gone in what is compiled.", "anchors": ["spade-ast-lowering/src/lambda.rs:visit_lambda", "spade-ast-lowering/src/lib.rs:visit_pattern", "spade-ast-lowering/src/lib.rs:visit_block", "spade-hir/src/symbol_table.rs:new_scope_with_barrier", "spade-hir/src/symbol_table.rs:add_declaration", "spade-hir-lowering/src/passes/lower_lambda_defs.rs"]}
{"id": "C58", "title": "An accepted impl block gives what its trait asks for", "statement": "If an impl block is accepted, it has exactly the methods and associated types of the trait, each once, and each method has the inputs and output of the trait's method, by name, order and type, once Self, the trait's parameters (or their defaults), the method's parameters and the associated types are read as the block gives them; a block for which this holds is accepted.", "quantifier": "all traits, all impl blocks, all signatures, all meanings of the types involved", "why_tests_cant": "types nest without bound and four kinds of replacement interact", "anchors": ["spade-ast-lowering/src/impls.rs:visit_impl_inner", "spade-ast-lowering/src/impls.rs:resolve_trait_self", "spade-ast-lowering/src/impls.rs:map_trait_method_parameters", "spade-ast-lowering/src/impls.rs:check_params_for_impl_method_and_trait_method_match"]}
{"id": "C59", "title": "Supertraits form no cycle, and a bound brings them all", "statement": "A program whose traits have different names is accepted by the supertrait check exactly if no trait is its own supertrait, directly or through others, whatever the order of declaration or search; a reported cycle is one. A bound on a type parameter puts on it the traits named and all their supertraits, with the arguments they have there, and nothing else.", "quantifier": "all sets of traits in any order, all orders in which the search takes names, all bounds", "why_tests_cant": "cycles have any length, the search order comes from a hash set, and the closure is unbounded", "anchors": ["spade-ast-lowering/src/impls.rs:visit_trait supertraits search (517-580)", "spade-hir/src/lib.rs:add_trait", "spade-typeinference/src/lib.rs:create_generic_list (1929-1954)", "spade-typeinference/src/lib.rs:visit_trait_bounds"]}
{"id": "C60", "title": "Text is split into tokens and literals as it is written", "statement": "At every place the lexer takes the longest token that is spelled there, a keyword rather than a name and documentation rather than a comment, and reports an error only where no token starts; tokens separated by blanks are read back as they were written; numbers have the value of their digits in their radix and the sign and width of their suffix, and never panic; byte characters and strings stand for the bytes their escapes say or are refused; comments nest and are skipped whole, and nothing else is.", "quantifier": "all texts, all sequences of tokens, all literals, all nestings of comments", "why_tests_cant": "texts are unbounded and the rules interact: which rule wins depends on every other rule and on what follows", "anchors": ["spade-ast/src/token.rs:TokenKind", "spade-ast/src/token.rs:parse_int", "spade-parser/src/lib.rs:next_token_helper (3146-3209)", "spade-parser/src/lib.rs:map_escape_char, ascii_string_literal, ascii_char_literal (437-545)"]}
{"id": "C61", "title": "Types, patterns, use trees and unit heads are read back as written", "statement": "Every sequence of tokens the grammar has for a type, a list of type parameters, a pattern, a use tree or the head of a unit is read as what the grammar says it stands for, whatever follows it as long as that does not go on with it, also when closing brackets are written together as >> or >>>; whatever is read was written that way, up to named tolerances; nothing can be read in two ways; and the parser stops on every sequence of tokens.", "quantifier": "every sequence of tokens, nesting depth and what follows", "why_tests_cant": "Grammars have unboundedly many nested sentences; tests parse a few dozen, and none shows that two spellings do not collide or that the parser always stops.", "anchors": ["spade-parser/src/lib.rs: type_expression, type_spec, tuple_spec, array_spec, trait_spec, generic_spec_list, generics_list, pattern, use_statement, parameter_list, unit_head, token_separated, eat, peek_kind", "spade-ast/src/lib.rs: IntLiteral::as_signed"]}
{"id": "C62", "title": "Data and Copy are what they say", "statement": "A type the compiler lets a program use as Data (store in a register, choose between, carry in an enum) has no inverted wire, memory, inout, clock or tristate among its parts, however deep and whatever its type arguments are; a type used as Copy has no inverted wire, memory or inout. Data implies Copy. A type without such parts and arguments implements the trait, and an error about an enum names one that carries something else.", "quantifier": "all programs of type declarations (structs, enums, aliases, built-in types, generic or not) and all closed types over them", "why_tests_cant": "The check is made on generic declarations, before the arguments are known, and combined later with bounds on parameters; tests cover a handful of shapes of nesting.", "anchors": ["spade-ast-lowering/src/auto_traits.rs: get_copy_witness, get_data_witness, enforce_enum_data, impl_auto_trait", "spade-typeinference/src/lib.rs: ensure_impls", "spade-compiler/core/marker.spade"]}
{"id": "C63", "title": "gen if keeps the branch whose condition holds", "statement": "A unit that ends in a gen if, with any nesting of gen ifs and else ifs in its branches, behaves for all values of the conditions as if only the statements in front and those of the branches taken had been written, with the same inputs, type parameters and latency. The compiler always finishes splitting it up, and refuses a gen if exactly if it is in a place where it must not be.", "quantifier": "all unit bodies, all nestings, all values of the conditions", "why_tests_cant": "Every nesting yields another set of generated units that call each other; tests try two or three nestings.", "anchors": ["spade-ast-lowering/src/type_level_if.rs: absorb_statements, expand_type_level_if", "spade-hir-lowering/src/passes/lower_type_level_if.rs: LowerTypeLevelIf"]}
{"id": "C64", "title": "Repeated registers stand for that many stages, and misuse of inout and of values without bits is found", "statement": "Writing reg*N is the same as writing N registers: in every block everything stays in the same stage, for every count a host can hold, and other counts are refused with the true reason. A unit is accepted exactly if it binds no inout value to a name, returns none, and takes each as no_mangle; and exactly if no operator computes with a value of size zero and no match yields one. Every report names a true fault.", "quantifier": "all unit bodies, all nestings of blocks, all counts, all assignments of types", "why_tests_cant": "The faults can be at any depth of nesting and depend on type parameters; tests put them at the top of a body.", "anchors": ["spade-hir-lowering/src/passes/flatten_regs.rs: FlattenRegs", "spade-hir-lowering/src/passes/disallow_inout_bindings.rs: InOutChecks", "spade-hir-lowering/src/passes/disallow_zero_size.rs: DisallowZeroSize", "spade-hir-lowering/src/passes/pass.rs: Passable"]}
{"id": "C65", "title": "Macros are read as written, and the built-in ones stand for the files", "statement": "A macro call, a template and every part of a macro's pattern is read exactly up to the closing token that matches, however delimiters nest; patterns and definitions are read back as they were written and no two are written alike. An expression with include! and include_bytes! is the one with the files' expressions and bytes in their place, where a file's own paths are seen from its directory; every other macro is refused.", "quantifier": "all sequences of tokens, all patterns and definitions, all file systems and nestings of included files", "why_tests_cant": "Delimiters and includes nest without bound and the closing token may be missing anywhere", "anchors": ["spade-parser/src/lib.rs: macro_pattern, macro_template, enclosed_token_stream", "spade-parser/src/items.rs: MacroDefParser", "spade-ast-lowering/src/lib.rs: handle_include, handle_include_bytes"]}
{"id": "C66", "title": "Blocks and files are read as written, also after an error", "statement": "The parser always finishes a block and a file. It reads a block without an error exactly if the text is a sequence of statements with a value or nothing at the end, as the grammar says, and then as those statements in that order with their attributes, up to the block's own brace; the same for a file and its items. Errors found are never forgotten, and a statement that goes wrong, or lacks its semicolon, costs one error and no other statement.", "quantifier": "all sequences of tokens, including places where no token can be read, all kinds of units, all nestings given by their first tokens", "why_tests_cant": "texts are unbounded and an error may be anywhere", "anchors": ["spade-parser/src/lib.rs: statements, block_statements, keyword_peeking_parser_or_else_seq, with_recovery, module_body", "spade-parser/src/statements.rs"]}
{"id": "C67", "title": "C++ test benches set and read the values they name", "statement": "For inputs and outputs of every width, setting an input leaves exactly the given value in the port of the simulated module, whatever it held before; reading an output gives all its bits, most significant first; every field with bits of a returned struct, however nested, is reached by its names and reads that field; all classes the generated header uses are declared in it.", "quantifier": "all widths, values, former contents of ports and nestings of structs", "why_tests_cant": "widths and nestings are unbounded, and words behave differently at multiples of 32", "anchors": ["spade-mir/src/verilator_wrapper.rs: output_wrappers, input_wrapper, verilator_wrapper", "spade-cxx/src/spade.rs: as_u32_chunks"]}
{"id": "C68", "title": "The files compiled are those named, in the namespaces given with them", "statement": "A file argument is taken exactly if it has no comma, being then the name of a file outside of any namespace, or consists of a root, a namespace and a name separated by two commas, where root and namespace are each nothing or names with :: between them; file and namespaces are then those written. Everything else is refused with a message that says what is wrong. The files of a command file are compiled in the order given, and none is if one entry is wrong or there is none.", "quantifier": "all texts of arguments, all lists of them and all ways to split a text into tokens", "why_tests_cant": "texts, paths and lists are unbounded; the tests have three arguments", "anchors": ["spade-compiler/src/namespaced_file.rs: namespaced_file", "spade-compiler/src/main.rs: main", "spade-parser/src/lib.rs: path, continue_path, expect_eof"]}
