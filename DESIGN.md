# Formal model of spade-lang/spade in Coq

## 1. Method

Source of truth: the Rust text in `/repo` (never built or run here).  Every model
definition cites the file and lines it transcribes.  The tie between model and
code is reading only.

Layout of `/verif/rocq/theories` (logical prefix `Verif`), one group per area:

* `<Area>Model.v`  – transcription of the Rust code as total Gallina functions;
  no proofs.  Panics (`unreachable!`, index out of range, arithmetic underflow)
  are explicit error values; fuel exhaustion is a separate error value.
* `<Area>Spec.v`   – small independent specification in mathematical terms; does
  not import helper functions of the model beyond its data types.
* `<Area>Proofs.v` – lemmas.
* `P_<Area>.v`     – only the property theorems, each `exact lemma`, with
  `Print Assumptions` below, and `Example`s showing the hypotheses are met.

A property that the faithful model violates gets a theorem `…_refuted` with an
explicit witness and is listed in section 5 (Findings).  A property proved under
an extra restriction that the English statement does not have ends in `_partial`.

## 2. Plan per property

| id | modelled | how proved |
|----|----------|-----------|
| C01 | `Type::size`, `compute_tuple_index`, ConstructTuple / IndexTuple code generation into a Verilog expression AST with a four-state IEEE-1364 width/sign semantics | list-slicing lemmas on bit vectors, induction on the field list |
| C02 | ConstructArray / IndexArray / RangeIndexArray | same, induction on elements |
| C03 | `tag_size`, ConstructEnum / IsEnumVariant / EnumMember | slicing + log2 bounds; expected refutation: 1-bit member of a one-variant enum |
| C04 | Add/Sub/Mul & Unsigned* with widths from type inference | Z arithmetic modulo 2^n |
| C05 | comparison code incl. zero-size special cases | decode lemmas |
| C06 | Truncate/SignExtend/ZeroExtend/Concat/Div/Mod | same |
| C07 | DivPow2 | refutation of both documented roundings + proof of the actual rounding |
| C08 | Constant statement | same |
| C09 | Match → priority casez | induction on arms |
| C10 | legality predicate (selects only on vectors, in range) | per operator; refutation for 1-bit trunc/sext |
| C11 | array/tuple equality from core library | injectivity of encoding; refutation with padding |
| C12 | DeclClockedMemory always-block, port decode | induction over write history |
| C13 | backward_expression_code | routing lemmas; refutation for slices |
| C14 | pattern lowering to MIR operators | mutual induction on patterns |
| C15/16 | usefulness algorithm, deconstructed patterns | Maranget's argument; refutation for integers |
| C17 | Substitutions / stage registers | induction over stages with cycle semantics |
| C18/19 | lower_pipeline enable / valid signal construction | token refinement, induction over time |
| C20 | available_in | induction; refutation with delayed condition |
| C21–25 | MIR passes with a relational trace semantics of statement lists | simulation |
| C26–29 | replacement stack, unification | induction on fuel / histories |
| C30/31 | constraint expressions | induction / log2 facts |
| C32 | impl table | induction on type expressions |
| C33/34 | vcd-translate | binary arithmetic on char lists; layout agreement; refutation for arrays |
| C35 | eval.rs | induction |
| C36 | match_args_with_params | permutations |
| C37 | Pratt parser on tokens | round-trip induction |
| C38 | MonoState as a transition system over all interleavings | invariant |
| C39 | InstanceNameTracker | string decomposition |
| C40 | linear state | invariant over operation sequences |
| C41 | LocMap | sorted map range lemma |
| C42 | compare_entity | refutation (input count) + partial soundness |
| C43 | meta types | finite case analysis lifted |
| C44 | id tracker | interleavings |
| C45 | UptoRange, get_range | layout agreement with C01 |
| C46 | do_inlining with both phases, the cache and the id trackers; units as MIR entities with any operator meaning | hierarchical meaning before = after, by induction on runs; fresh names by id bounds; termination by rank |
| C47 | the symbol table: scopes with barriers, namespaces, visibilities, notes, aliases; canonicalize, lookup_id, try_lookup_id, lookup by kind, adding and unique adding | termination by the aliases not yet forbidden; soundness and completeness for paths without aliases; aliases by relating the nested lookup; scope work by an extension relation |
| C48 | the cross-domain fifo and its synchronisers as registers stepped by the edges of two clocks, gray code; a coincident edge lets the other domain see old or new bits independently | an invariant tying the pointers, as seen on both sides, to the numbers of values put in and got out; gray code by the bits |
| C49 | sync_wide and handshake as registers stepped by the edges of two clocks; a coincident edge lets a synchroniser see the old or new bit and lets changing data read as anything | the control registers always form one of 13 shapes, passed in a cycle; each shape names the clock whose edge moves on; data invariants per shape |
| C50 | the methods as functions on bits, recursing on the type-level length as the Spade code does; the streams as registers stepped by the clock | an array value is the concatenation of its elements; each method equals the list function by induction on the length; stream invariants say what the registers hold in terms of the values given |
| C51 | `lower` of expressions, statements and units with the counter for fresh ids; hardware as a vector on each signal of each instance in each instant | a big-step meaning of the source that does not mention signals; by induction on it every signal carries its expression's value, with C01-C14 for the operators and patterns; names by an interval of fresh ids |
| C52 | the walk of the checker over a unit in the state of `InferModel`: patterns, statements, expressions, generic lists with bounds and where clauses, calls, requirements | a declarative typing relation without variables; each step keeps the invariant of C27 with number bounds, records equations only, and every completion of its result is one of its start; what a step establishes is true in every completion, so the rules follow by induction on the unit; completions exist when nothing is left over |
| C53 | what lowering sees of a checked unit: the unit with the types recorded for it put in place, sizes read off, arms of `gen if` chosen, calls resolved | a checked unit (C52) becomes one that is well typed in the sense of C51, by induction over expressions with the declarations relating both views of a type; composed with C52 and C51; a relation between the two views of a unit, written independently (`ElabShown`), holds |
| C54 | `select_method` and its overlap test on the types of the inference state; the blocks as a list in any order | the answer depends on the tree of the receiver's type only; the overlap test says Yes for types that match in every completion, No for those that match in none, and keeps its answer under substitution, by induction over written types |
| C55 | `re_visit_type_declaration`: the search through pending names with any order of taking them, the walk back along the recorded edges, declarations one after the other | the total weight of the pending names falls with every name taken, because accepted declarations do not lead to themselves; the edges recorded are true mentions, so the walk back is a true cycle and, never meeting a name twice, ends; spelling out is steady from some depth on by induction along mentions. Proved in full (C55_terminates, C55_accepted, C55_refused, C55_program, C55_order, C55_finite, C55_endless). |
| C56 | how unit names are chosen, renamed for instances and spelled, on top of the machine of C38 (every interleaving) | paths, numbers and brackets can be read back from the text; C38 gives distinct numbers, roots keep theirs and others get free ones. C56_modules_partial, provided names marked no_mangle differ from each other and from units outside of all modules and identifiers are ASCII; refuted without. |
| C57 | symbol table scopes with identifiers, declarations and capture barriers; lowering of patterns, blocks, matches and lambdas to HIR; lambdas to structs and units | the source by names with closures, the target by identifiers without; a relation between environments that says which identifiers are there (inside a lambda: its own and the captured ones), closures related to structs of their captured values; induction over the syntax, and over the depth of calls. C57_unit_partial (the name `Lambda` not used; types left out), C57_declared by counting open declarations. |
| C58 | the checks of an `impl` block against its trait: generic arguments, associated types, methods, replacing of `Self`, parameters and associated types, comparison of signatures | types are read in any domain; the replacement keeps the meaning in every reading that fits the block, so equal results mean equal meanings; readings that fit exist (C58_meanings); types themselves as a domain give the converse. C58_accepted in full; C58_complete_partial for signatures without const generic expressions and views of parameters, refuted beyond. |
| C59 | the search for cycles when a trait is declared, the walk back for its error, `add_trait`; the closure of a bound under supertraits and its conversion | invariant of the search (keys are pending or have all their supertraits as keys; each key comes from an older one) gives acyclicity, termination and true notes for every order; accessibility of the supertrait relation carries over declarations; the closure is the least set. C59_bounds_partial leaves out supertraits that use their trait's parameters or Self, for which it fails. |
| C60 | the table of tokens with the longest match and its priorities, comments, the reading of numbers, names, byte characters and byte strings | derivatives of regular expressions proved against their languages, then against a spelling of each kind of token written without them; a first-characters argument that two kinds never compete except keyword/name and documentation/comment; round trip of any sequence of tokens; induction on the text for comments with an independent count of `/*` and `*/`. C60_comment_partial leaves out comments with quotes or `//`, for which it fails, and assumes of Logos that after a character starting no token it goes on with the next character (`one_by_one`). |
| C61 | the parser of types, traits, type parameters, patterns, `use` trees and heads of units (without `where`), on tokens | a grammar given as inductive relations; every derivation is read back (mutual induction on derivations, with what may follow), everything read has a derivation (induction on the calls), a bound on nested calls from the number of tokens, and hence that nothing can be read in two ways |
| C62 | the automatic impls of `Copy` and `Data`, the check of enums, and the search for an impl on a closed type | an invariant kept by taking a part of a type, from the clean outcome of the checker; by mutual induction on what something written stands for. The converse by induction on types, termination by the order of C55. |
| C63 | splitting a unit that ends in `gen if` into units, and choosing a branch once its condition is known | the choice is a relation on the written body; induction on the depth of the expansion shows that the unit, followed through the units made for it, comes to that choice. Positions by induction on expressions. |
| C64 | writing out `reg*N`, and the checks of `inout` and of values of size zero, as visits of a whole body | stages are numbers given to statements by a separate timeline; the check passes are characterised once for any pass that only checks (it succeeds exactly if every expression inside passes), by induction on the size of expressions. |
| C65 | the readers of token streams, macro patterns and macro definitions; the lowering of include! and include_bytes! over any file system and any reader of expressions | round trip and its converse by induction on patterns and on fuel; the closing token is found by a count of open ones, shown to be a grammar of balanced tokens; lowering is compared with a relation that writes the files in place |
| C66 | the readers of statements, blocks and files with their recovery from errors, over every sequence of tokens and places where the lexer finds none | termination by the length of the text, which every step shortens; a block is read without an error exactly if it is written as the grammar says (soundness by inversion of each reader, completeness by computation, both along the sequence); errors noted are only ever added to; after a statement that goes wrong in one of fifteen ways the rest is read from the next statement on, and a missing semicolon costs nothing but a message |
| C67 | the C++ classes generated for test benches: the assignments of inputs, the reading of outputs, and the classes of the fields, over Verilator's ports of any width | words of a number and bits of words by induction on the words; the loop of assignments by an invariant on the words done; classes by induction on types |
| C68 | reading file arguments and the file list of a command file, over any lexer | splitting at commas by induction on the text; paths by induction on the tokens; with the lexer of C60 by the longest match of each name and `::` |

## 3. Trusted base

* Coq 8.16.1's kernel and its `coqc`.
* `Print Assumptions` is called under every theorem named in `MANIFEST.json`; each
  answers "Closed under the global context".  No axiom is used, not even one of the
  standard library's.  (`vcheck` lists seven names of `Coq.ssr.ssrunder`: parameters
  inside a standard library file that gets loaded, on which no theorem depends.)
* The transcription: that each `*Model.v` definition does what the cited Rust lines
  do.  This is by reading; nothing was compiled or run.
* The semantics given to the emitted Verilog: `Verilog.v` (four-state values,
  self-determined and context-determined widths, signedness, selects, shifts,
  `casez`, after IEEE 1364-2005 ch. 5), the clocked semantics in `RegModel.v`,
  `MemModel.v`, and the relational semantics of MIR statement lists in `MirSpec.v`.
* The specifications: the `*Spec.v` files and the statements in `P_*.v`.

What is modelled, by file (Rust paths relative to /repo):

| model | code |
|-------|------|
| CodegenModel | spade-mir/src/types.rs sizes; codegen/mod.rs `forward_expression_code`, constants, `compute_index`, declarations of widths |
| InvModel | codegen/mod.rs `backward_expression_code` |
| MemModel | codegen/mod.rs clocked memories |
| RegModel | codegen/mod.rs registers, with reset and initial value; passes/split_compound_regs.rs; passes/auto_clock_gating.rs |
| MirModel | spade-mir statements; aliasing.rs flattening, passes/deduplicate_mut_wires.rs, renaming.rs, unit_name/value_name formatting |
| EvalModel | spade-mir/src/eval.rs |
| DiffModel | spade-mir/src/diff.rs |
| PatModel | spade-hir-lowering usefulness.rs, pattern.rs |
| LowerModel, ConcModel | hir-lowering pattern conditions and bindings, `to_mir_type` |
| PipeModel | hir-lowering pipelines.rs, substitution.rs, stage enables and valid signals, pipeline availability (typeinference/hir-lowering `available_in`) |
| LinearModel | hir-lowering/linear_check/ |
| MonoModel | hir-lowering/monomorphisation.rs |
| InlineModel | hir-lowering/inline.rs |
| SymModel | spade-hir/src/symbol_table.rs: scopes, adding, lookup; spade-common name.rs paths |
| GrayModel, FifoModel | spade-compiler/stdlib/num.spade to_gray, to_uint; mem.spade fifo, fifo_read, fifo_write; cdc.spade sync2, sync_uint_counter |
| CdcModel | spade-compiler/stdlib/cdc.spade: sync2_bool, sync_wide, handshake |
| ArrModel | spade-compiler/stdlib/array.spade, num.spade, conv.spade (byte orders, to_int), ops.spade (order), option.spade (padded_sliding_window, chunks) |
| ExprModel | hir-lowering lib.rs: lowering of expressions, statements, calls and units |
| InferModel | spade-typeinference: replacement stack, unification, constraints, checkpoints, trait bounds and implementations |
| TypingModel | spade-typeinference: lib.rs units, patterns, statements, generic lists, calls; expression.rs; requirements.rs |
| ElabModel | spade-typeinference/src/mir_type_lowering.rs `concretize`, spade-hir-lowering/src/lib.rs where it looks up types, sizes, chosen branches and called items. Instances without type parameters only: calls to generic units are instantiated by monomorphisation (C31) |
| MethodModel | spade-typeinference/src/method_resolution.rs `select_method`, `spec_is_overlapping`, `expr_is_overlapping`, `methods_for_type`, `into_impl_target`; spade-ast-lowering/src/impls.rs `get_impl_target`; the order of the blocks. `where` clauses and bounds of blocks play no part in the choice and are left out, as are methods found by the bounds of a type parameter |
| DeclModel | spade-ast-lowering/src/global_symbols.rs `re_visit_type_declaration` (cycle search and error notes), `add_type_spec_name_ids_to_graph` | a declaration is the list of types it is made of; its attributes, ports, documentation, the other errors and the symbol table are left out; each name is declared once. Observed and not modelled: the default of a type parameter of a type declaration is never filled in, so a written `S` for `struct S<T = bool>` reaches type_decl_to_concrete with too few parameters. |
| UnitNameModel | spade-hir-lowering/src/lib.rs `as_mir`, names of instances in `lower` of calls; monomorphisation.rs `request_compilation` (renaming), roots of `compile_items`; spade-mir/src/unit_name.rs `as_verilog`; spade-ast-lowering/src/lib.rs `visit_unit` (choice of the name), type_level_if.rs (branches) | what a unit instantiates is a list of instances and of numbers taken; contents of modules, intrinsics, lambdas and Verilog keywords are left out. Observed and not modelled: a unit marked no_mangle may be called like a Verilog keyword. |
| LamModel | spade-hir/src/symbol_table.rs `add_thing_with_name_id`, `add_declaration`, `declared_variable`, `new_scope_with_barrier`, lookup of single names; spade-ast-lowering/src/lib.rs `visit_pattern`, `visit_statement`, `visit_block`, `visit_expression` (representative expressions), `visit_register`; lambda.rs `visit_lambda`, `handle_unit_kind`; spade-hir-lowering/src/passes/lower_lambda_defs.rs | types and generics of lambdas (so one instance each), pipeline lambdas, paths and visibility (SymModel) |
| ConformModel | spade-ast-lowering/src/impls.rs `visit_impl_inner` up to the insertion into the impl table, `check_generic_params_match_trait_def`, `check_no_missing_elements`, `resolve_trait_self`, `check_*_match*`, `map_*_to_trait`, `map_trait_method_parameters`; spade-hir types and heads. Left out: attributes, `wire` markers, the visiting of units and types themselves, anonymous traits (made from the block) |
| SuperModel | spade-ast-lowering/src/impls.rs 517-580 (supertrait search), spade-hir `add_trait`; spade-typeinference/src/lib.rs 1929-1954 and 2676-2763 with the checks of `type_var_from_hir` for generics, Self and const generics. Left out: the unification of the bounds that follows (C52), method heads, Fn-style traits' sugar |
| LexModel | spade-ast/src/token.rs (whole table, parse_int, slices of names and labels); spade-parser/src/lib.rs 437-545 (character and byte string literals) and 3146-3209 (comments). Logos' generated automaton is modelled as longest match with the table's priorities; what it drops after a character that starts no token is a parameter. Left out: spans, the look-ahead of the token stream, the Unicode tables (parameters `xid_start`, `xid_continue`, `word`) |
| SynModel | spade-parser/src/lib.rs 198-290, 870-932, 1169-1490, 1625-1840, 1877-2018, 2795-2905, 3019-3140. An expression in braces and an attribute are one token each (expressions: C37). Left out: `where` clauses, statements and items other than heads, locations, messages and error recovery. Calls are bounded by fuel, shown sufficient. |
| AutoModel | spade-ast-lowering/src/auto_traits.rs, spade-hir/src/auto_traits.rs, spade-compiler/core/marker.spade, spade-typeinference/src/lib.rs 3546-3640. Places in the text are what is written there. Left out: the names given to parameters of the impls, impls for types with unknown parts, that only one impl may fit. |
| GenModel | spade-ast-lowering/src/type_level_if.rs, spade-hir-lowering/src/passes/lower_type_level_if.rs, the order of visits in passes/pass.rs. Conditions have given values; other expressions and statements are a number and their operands. Left out: locations, expression ids, heads other than kind and parameters, conditions that are not of type bool. |
| PassModel | spade-hir-lowering/src/passes/pass.rs, flatten_regs.rs, disallow_inout_bindings.rs, disallow_zero_size.rs, their order in src/monomorphisation.rs. Expressions, patterns and counts have given types; a type is a number, inout, a tuple, or anything else with its size. Left out: the passes between these, locations, wording. |
| MacroModel | spade-parser/src/lib.rs:2508-2694, src/items.rs:109-180, src/expression.rs:287-315, spade-ast-lowering/src/lib.rs:2396-2430 and 2927-3028. Tokens not told apart by this code are numbers; files, the reader of expressions and the reading of paths are parameters of the theorems. Not modelled: locations, messages, UTF-8 errors apart from others, overflow of the count of open delimiters |
| BlockModel | spade-parser/src/statements.rs, src/item_type.rs, src/lib.rs:961-975, 1497-1625, 1842-1945, 2478-2506, 2696-2770 and 2924-3117. Expressions, patterns, types, attributes, visibility markers, type declarations and items are one token each (how they are read is C37 and C61), so errors inside them are not modelled; texts and places of messages left out. |
| WrapModel | spade-mir/src/verilator_wrapper.rs, spade-cxx/src/spade.rs:53-65. C++, std::bitset and Verilator's ports are modelled by what they do, the text by the assignments and classes it consists of. The number a value stands for is EvalModel's. |
| ArgModel | spade-compiler/src/namespaced_file.rs:6-91, spade-compiler/src/main.rs:98-119, spade-parser/src/lib.rs:191-244. The lexer is a parameter (it is C60's, which C68_lexed puts in), texts of messages are reduced to what they quote; clap, serde and opening the files are left out. |
| ImplModel | spade-hir/src/impl_tab.rs, ast-lowering `get_impl_target` |
| ArgsModel | spade-hir/src/param_util.rs |
| ParseModel | spade-parser/src/expression.rs and the literal/aggregate/call parsers of lib.rs |
| VcdModel | vcd-translate/src/translation.rs |
| SimModel | spade-simulation-ext/src field ranges |
| LocModel, IdModel, InstModel | location map, id trackers, instance names |

Further models added later are listed with their properties in section 2.

## 4. Not modelled

* Lexing, statements, items, types and error recovery of the parser.
* Which tables are built for which program (the order in which items, modules and
  `use` statements are declared); the elaboration of the surface syntax into HIR other than argument matching, impl
  registration and literals.
* Diagnostics: their text, spans, suggestions.  A diagnostic is "refused".
* The text of the Verilog (an abstract syntax is generated; identifiers are
  modelled where clashes matter, C22 and C39), attributes, `wal` tracing, coverage.
* Standard library modules other than those named in a property.
* Files, command line, Swim, Surfer plug-in, Python and C++ glue around the
  simulation bindings.
* Running time and memory; arithmetic on `BigUint`/`BigInt` is exact, `usize` is
  unbounded unless the property is about wrapping (C44).

Simplifications of a definition are stated in its comment.

## 5. Findings

Each is a theorem about the model with a concrete witness; read against the cited
lines it is a defect, or at least a surprise, in the program.

| property | theorem | finding |
|---|---|---|
| C03 | C03_enum_member_refuted | a one-bit member, followed by others, of an enum with one variant is read as the whole value (`EnumMember`) |
| C07 | C07_* | `div_pow2` rounds half up, neither toward zero nor toward minus infinity as documented; literals of 32 bits break it for wide values |
| C10 | C10_* | sign extension and truncation of a one-bit value select a bit of a scalar; zero-width operands are named though never declared |
| C11 | C11_* | `==` on arrays compares padding: two `None`s in an `[Option<T>; n]` may differ |
| C13 | C13_* | slices of arrays of `inv` wires use the forward size of the element |
| C15 | C15_* | an integer pattern `v` is treated as the range `v ..= v+1`: arms `0` and `2` "cover" `uint<2>`; a column of clock, memory or inout type makes any match exhaustive; refutable `let` patterns are accepted |
| C16 | C16_* | a reported missing range may contain covered values; a match on a copy view of an enum panics |
| C18 | C18_* | the condition of `reg[cond]` in a later stage is read from stage 0; a nested pipeline does not stall with the enclosing one |
| C20 | C20_* | availability ignores `if` conditions, `match` scrutinees and bindings inside blocks |
| C22 | C22_* | a user identifier can equal a compiler-made one (`a_n1`, `_e_3`, `x_o`, `output__`) |
| C23 | C23_* | removing duplicate sets can remove the only driver; an output bound to a merged wire dangles |
| C24 | C24_* | each part of a split register gets the whole reset value; zero-size parts are assigned without declaration |
| C25 | C25_unit_refuted | gating a register of `Option<()>` emits a bit select of a scalar and an undeclared register |
| C26 | C26_leak_refuted | `ensure_impls` returns without dropping its checkpoint for tuples of different length |
| C27 | C27_unlinked_refuted, C27_generic_refuted | unifying an unknown with itself, under trait bounds, yields a variable that is not linked; a generic argument unifies without a replacement |
| C28 | C28_sign_refuted | whether `int`/`uint` unification succeeds depends on the order |
| C31 | C31_uint_negative_refuted | `bits_for` of a negative number gives an unsigned width |
| C32 | C32_bool_refuted, C32_alias_refuted | `impl Tr for X<true>` twice is accepted; aliases of tuples, arrays, `inv` are not expanded |
| C34 | C34_* | arrays are printed last element first; a value longer than its type underflows |
| C35 | C35_* | `-(-128) + 0` printed wrongly; unsigned `+`/`-` always panic; nested aggregates over 64 bits lose their upper bits |
| C37 | C37_* | `[a b]` parses like `[a, b]`; a stray `$` after a name is eaten; the sign of an unsigned literal or tuple index is dropped |
| C38 | C38_text_refuted | names of generic instances depend on the interleaving of the worker threads |
| C39 | C39_signal_refuted | instance `sub_0` can have the name of a signal |
| C40 | C40_match_refuted, C40_if_refuted, C40_at_refuted | wires in match arms, `if` branches and `@` patterns may be used twice or never |
| C41 | C41_innermost_refuted | spans with the same start come outermost first |
| C42 | C42_* | extra inputs, a number shared by two names and repeated definitions are not noticed |
| C43 | C43_concrete_refuted | `is_more_concrete_than` is inverted |
| C44 | C44_wrap_refuted, C44_clone_refuted | ids repeat after 2^64 requests, and in clones |
| C45 | C45_inverted_refuted, C45_history_refuted | a field of an inverted struct port panics; after a wrong field name every later uncached request panics |
| C46 | C46_types_refuted, C46_recursion_refuted | known types of inlined signals are recorded under names that do not exist; inlining a unit that contains itself never ends |
| C47 | C47_pub_lib_refuted, C47_deprecated_use_refuted, C47_super_at_root_refuted, C47_trait_alias_refuted, C47_try_refuted | `pub(lib)` is checked against the library of the user, so every library sees the item; a deprecated `use` never warns; `pub(super)` on an item without grandparent makes its uses panic; `type A = A;` used as a trait bound before it is checked is looked up for ever; asking whether a name exists panics when it exists but is not visible |
| C48 | C48_size_refuted, C48_short_reset_refuted | the number of words and the address width are separate parameters and their relation is not checked: with fewer words values are lost; a reset of one edge on both sides leaves old pointers in the synchronisers, so the read side shows values although nothing has been put in since |
| C49 | C49_short_reset_refuted, C49_frequent_refuted, C49_frequent_junk_refuted | the synchroniser registers have no reset: after a reset of one edge a stale `valid` makes sync_wide capture the never written register UNDEF; values given too often to handshake are lost (its documentation says so), and the receiver may even read a value that was never given, because a stale acknowledgement lets the data change under a `valid` still on its way |
| C50 | C50_fold_order_refuted, C50_chunks_latency_refuted | the documentation of fold and reduce nests the calls to the right, the code to the left (different for functions that are not associative); the documentation of Option::chunks names one cycle of latency, there is none |
| C52 | C52_minus_one_refuted, C52_turbofish_refuted, C52_declared_at_refuted | `-1` is accepted as an `int<0>`; type arguments after `::<` are not compared with the bounds of the function; a name declared with `decl` and then bound with `@` is not compared with the pattern after the `@` |
| C54 | C54_repeated_refuted, C54_order_refuted, C54_alias_refuted, C54_early_refuted, C54_view_refuted | `impl<T> (T, T)` is chosen for a `(bool, str)`; of two blocks without trait that have the method, the first in a hash map's order is taken; a block for an alias is never found; a call on `&_` is refused before the type is known; methods of `impl &T` are listed and never found, those of `T` found and not listed for a `&T` |
| C56 | C56_plain_refuted, C56_outer_refuted, C56_unicode_refuted | two units of the same name marked no_mangle in different modules, or one and a unit outside of all modules, become Verilog modules of the same name, without a diagnostic; a unit named with a letter outside of ASCII becomes text that is no Verilog identifier. |
| C57 | C57_lambda_name_refuted | the struct generated for a lambda is added to the scope the lambda stands in under the name `Lambda`: after a lambda, a program's own struct of that name is no longer found in that block |
| C58 | C58_copy_view_refuted, C58_number_refuted, C58_default_refuted, C58_kind_refuted, C58_bounds_refuted, C58_hidden_refuted, C58_repeated_refuted | a correct impl is refused when the trait writes `&T` of its parameter, or a default that names another parameter; a number as trait argument is an internal error; whether a method is fn, entity or pipeline, and the bounds of its type parameters, are not compared; an impl with fewer `impl Trait` inputs panics; of two methods of one name in a trait the first is forgotten |
| C59 | C59_parameter_refuted, C59_self_refuted | `trait A<T>: B<T>` used as a bound panics (the supertrait's arguments are looked up among the generics of the function), `trait A: B<Self>` is an internal error |
| C60 | C60_octal_refuted, C60_backslash_refuted, C60_comment_refuted | `0o17u8` is read as `0o17u` followed by `8`; no byte string can contain a backslash; quotes and `//` count inside block comments, so code between two comments with one `"` each is lost without an error |
| C61 | C61_trailing_refuted, C61_sign_refuted, C61_impl_refuted, C61_self_refuted, C61_attributes_refuted, C61_equals_refuted | A path may end in `::`; the sign of `-5u8` is dropped in types and patterns; `impl` may name no trait; no comma is needed after `self`; `#[a] wire #[b] x` loses `#[b]`; `>=` is not split, so `a: T<U>= x` is refused |
| C62 | C62_view_refuted, C62_member_refuted, C62_phantom_refuted, C62_written_refuted | A struct with a `&clock` is `Data`; a struct with a tuple of nine or a view is `Data` although the member itself is not; a type parameter that no member uses counts; `impl Data for Port {}` is accepted for a type with an `inv` member. |
| C63 | C63_path_refuted, C63_let_refuted | Both units made for a `gen if` get the path segment `if#true` (`IfF` is never used), so they differ by number only; a `gen if` bound by `let` is accepted although the message says it can only be the result of a unit. |
| C64 | C64_negative_refuted, C64_match_refuted, C64_tuple_refuted | A negative count is reported as an internal error saying that it exceeds usize::MAX; an inout value can be bound to a name by an arm of match; a tuple (or struct) that holds an inout value can be bound, returned, and taken without no_mangle. |
| C65 | C65_unclosed_refuted, C65_left_refuted, C65_cycle_refuted, C65_root_refuted | An unclosed macro call, template or pattern keeps the parser reading the end of the file for ever (C65_unmatched: always, where no closing token matches); what an included file holds after its first expression is dropped without a word; a file that includes itself is followed for ever; include!("/") unwraps the missing parent of the root |
| C66 | C66_condition_refuted, C66_marker_attributes_refuted, C66_visibility_refuted, C66_lost_refuted, C66_dangling_refuted | The condition in `reg[cond](clk) x = v;` is read and thrown away, and so are attributes of `reg;` and `pub` in front of an expression or of `}`; `{ x pub }` makes a statement of the block's value, so that the block has none; attributes and `pub` after the last item of a file are dropped. All without a message. |
| C67 | C67_declared_refuted, C67_class_names_refuted | A struct with a field without bits has a member of a class that is not declared, so that the header does not compile; a field `a_b` and a field `b` of `a` get classes of one name. |
| C68 | C68_quoted_refuted, C68_commas_refuted, C68_trailing_refuted, C68_names_refuted | With something behind the first path the second is quoted in the message; the number of commas said is one more than there are; `a::,b,f` is taken as `a,b,f`; a file with a comma in its name cannot be given. |

Observed while reading, without a theorem: `#[no_mangle]` on a unit with a hidden
generic (`impl Fn` parameter) declares module `name` while callers instantiate
`name[id]`; a constant index past the end of an array of wires panics the linear
check; `core/ops.spade`'s `PartialEq` for 4-tuples lacks a bound on its last
member; polymorphic recursion never ends; a negative start of a range index passes type
inference (only start <= end <= size is required); constraints and requirements still open at the
end of a unit are not reported; `generate_unit` runs the optimisation passes twice.
