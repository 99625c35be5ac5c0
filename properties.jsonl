{"id": "C01", "title": "Range-constraint arithmetic never loses a possible value", "statement": "If value a is allowed by range constraint A and b by B, then a+b is allowed by the sum of A and B, a*b by their product, a*a by the square of A, -a by the negation of A, and c*a by the multiple of A by c. Constructors (from mask, bit, value, range) allow exactly the values described.", "quantifier": "every prime modulus, every pair of range constraints (wrapping or not, any mask), every pair of field elements", "why_tests_cant": "range constraints wrap around the modulus and combine an interval with a bit mask; the number of (interval, mask, value) combinations is astronomically large and errors sit at wrap-around boundaries", "anchors": ["constraint-solver/src/range_constraint.rs: RangeConstraint::{combine_sum, combine_product, square, multiple, from_mask, from_bit, from_value, from_range, unconstrained}, Neg"]}
{"id": "C02", "title": "Conjunction and disjunction of range constraints are sound", "statement": "Every value allowed by both A and B is allowed by the conjunction; every value allowed by A or by B is allowed by the disjunction; if two range constraints are reported disjoint then no value is allowed by both; a range constraint reporting a single value allows no other value.", "quantifier": "every prime modulus, every pair of range constraints, every field element", "why_tests_cant": "intersection of two wrapping intervals has many cyclic orderings, and an unsound case silently removes a solution", "anchors": ["constraint-solver/src/range_constraint.rs: RangeConstraint::{conjunction, disjunction, is_disjoint, try_to_single_value}, interval_intersection"]}
{"id": "C03", "title": "Enumerating a range constraint is complete", "statement": "The enumeration of allowed values lists every allowed field element exactly once and nothing else, and the reported range width is an upper bound on the number of allowed values (and exact for mask-free constraints).", "quantifier": "every prime modulus below the size limit, every range constraint whose width fits 32 bits", "why_tests_cant": "exhaustive search correctness depends on completeness for every wrapping interval", "anchors": ["constraint-solver/src/range_constraint.rs: RangeConstraint::{allowed_values, range_width, size_estimate, allows_value}"]}
{"id": "C04", "title": "Grouped-expression arithmetic denotes polynomial arithmetic", "statement": "For every assignment of the variables, the value of e1+e2, e1-e2, e1*e2, -e, and k*e computed on grouped expressions equals the field operation on the values, and the results keep the representation invariant (no zero coefficients, no trivial products).", "quantifier": "every field, all expressions of any size and nesting, all assignments", "why_tests_cant": "cancellation of quadratic terms and zero coefficients depends on the shape of arbitrarily nested expressions", "anchors": ["constraint-solver/src/grouped_expression.rs: Add, Sub, Mul, Neg, Sum, remove_quadratic_terms_adding_to_zero"]}
{"id": "C05", "title": "Substitution is semantic substitution", "statement": "Replacing a variable by a known value or by an expression yields an expression whose value under any assignment equals the original expression under the assignment updated at that variable; afterwards the variable no longer occurs (when the replacement does not mention it).", "quantifier": "every expression, variable, replacement and assignment", "why_tests_cant": "in-place substitution restructures nested products; tests cover a handful of shapes", "anchors": ["constraint-solver/src/grouped_expression.rs: GroupedExpression::{substitute_by_known, substitute_by_unknown, substitute_simple}"]}
{"id": "C06", "title": "The range constraint computed for an expression is sound", "statement": "If the range-constraint provider only claims true facts about the assignment, then the value of any expression is allowed by the range constraint computed for that expression.", "quantifier": "every expression, every provider, every assignment consistent with it", "why_tests_cant": "interval arithmetic over nested products with wrap-around; unbounded expression space", "anchors": ["constraint-solver/src/grouped_expression.rs: GroupedExpression::range_constraint"]}
{"id": "C07", "title": "Reported degrees are upper bounds and the inlining degree prediction is right", "statement": "The reported degree of an expression bounds the degree of the polynomial it denotes; the degree predicted for substituting a variable by an expression bounds the degree of the expression obtained by actually substituting.", "quantifier": "every expression, variable and replacement", "why_tests_cant": "a prover silently breaks if a constraint exceeds the degree bound; the prediction must hold for all nested expressions", "anchors": ["constraint-solver/src/grouped_expression.rs: degree, degree_of_variable", "constraint-solver/src/inliner.rs: expression_degree_with_virtual_substitution"]}
{"id": "C08", "title": "Solving one algebraic constraint only derives consequences", "statement": "Every effect (assignment or range constraint) returned when solving an algebraic constraint holds in every assignment that satisfies the constraint and the given range constraints; an error is returned only if there is no such assignment.", "quantifier": "every prime field, constraint, provider and satisfying assignment", "why_tests_cant": "soundness bug only shows for particular coefficient and range combinations", "anchors": ["constraint-solver/src/algebraic_constraint/solve.rs: solve, solve_affine, solve_quadratic, transfer_constraints, combine_range_constraints"]}
{"id": "C09", "title": "Solving a constraint for a variable or expression is exact", "statement": "If solving e = 0 for variable v (or affine expression s) returns r, then for every assignment e evaluates to zero exactly when v (resp. s) evaluates to the value of r, and r does not mention v.", "quantifier": "every prime field, constraint, target and assignment", "why_tests_cant": "exactness in both directions is an all-assignments statement", "anchors": ["constraint-solver/src/algebraic_constraint/solve.rs: try_solve_for, try_solve_for_expr"]}
{"id": "C10", "title": "Inlining variables preserves the solution set and respects the degree bound", "statement": "After inlining, an assignment satisfies the new system together with the recorded inlined definitions exactly when it satisfies the old system; every solution of the new system extends uniquely; no constraint or bus interaction exceeds the given degree bounds unless it did before; the procedure terminates and no removed variable remains.", "quantifier": "every system, every policy deciding what may be inlined, every degree bound, every assignment", "why_tests_cant": "inlining is iterated and rewrites all constraints; only an induction covers arbitrarily long chains", "anchors": ["constraint-solver/src/inliner.rs: replace_constrained_witness_columns, substitution_would_not_violate_degree_bound, find_inlinable_variables"]}
{"id": "C11", "title": "Splitting a constraint is an equivalence", "statement": "If a constraint is split into parts then, for every assignment within the range constraints, the original is zero exactly when all parts are zero.", "quantifier": "every prime field, constraint, provider, assignment", "why_tests_cant": "the argument is modular arithmetic on wrapping ranges, wrong only at extreme coefficients", "anchors": ["constraint-solver/src/solver/constraint_splitter.rs: try_split_constraint"]}
{"id": "C12", "title": "Boolean extraction is an equivalence up to the fresh variable", "statement": "A product constraint (a)(a+c)=0 is replaced by an affine constraint with a fresh boolean variable such that an assignment satisfies the original exactly when it can be extended to the fresh variable to satisfy the replacement.", "quantifier": "every field, constraint, assignment, and history of earlier extractions", "why_tests_cant": "existential quantification over the fresh variable, any history of substitutions", "anchors": ["constraint-solver/src/solver/boolean_extractor.rs: BooleanExtractor::{try_extract_boolean, apply_assignments}"]}
{"id": "C13", "title": "Linearization is an equivalence up to fresh variables", "statement": "Every assignment satisfying the original constraint extends to the fresh variables so that all linearized constraints hold, any assignment satisfying all of them satisfies the original, and the linearized constraints are affine.", "quantifier": "every constraint, assignment and history", "why_tests_cant": "unbounded nesting, memoised products, existential fresh variables", "anchors": ["constraint-solver/src/solver/linearizer.rs: Linearizer::linearize"]}
{"id": "C14", "title": "Exhaustive search only reports consequences", "statement": "Every assignment or range constraint reported by exhaustive search on a set of constraints holds in every solution of these constraints within the range constraints; a contradiction is reported only if there is no solution.", "quantifier": "every system, every set of variables, every provider and solution", "why_tests_cant": "depends on completeness of the enumeration and on every bus handler; not enumerable", "anchors": ["constraint-solver/src/solver/exhaustive_search.rs: exhaustive_search_on_variable_set, find_unique..., get_unique_assignments"]}
{"id": "C15", "title": "Assignments returned by the solver hold in every solution", "statement": "Every pair (variable, expression) returned by solving holds in every assignment satisfying all added constraints, bus interactions and range constraints; an error is returned only if there is no satisfying assignment.", "quantifier": "every sequence of solver operations (adding constraints, bus interactions, range constraints, solving), every handler that is sound, every satisfying assignment", "why_tests_cant": "the solver is a fixpoint loop over interacting transformations with fresh variables; unbounded histories", "anchors": ["constraint-solver/src/solver/base.rs: BaseSolver::{solve, add_algebraic_constraints, add_bus_interactions, add_range_constraint}"]}
{"id": "C16", "title": "Facts reported by the solver about expressions are true", "statement": "The range constraint the solver reports for an expression allows the value of the expression in every solution, and two expressions reported to be different have different values in every solution.", "quantifier": "every history of solver operations, expressions, and solutions", "why_tests_cant": "used to delete memory accesses; a false difference would be a soundness bug visible only for aliasing addresses", "anchors": ["constraint-solver/src/solver/base.rs: range_constraint_for_expression, are_expressions_known_to_be_different", "constraint-solver/src/utils.rs: possible_concrete_values"]}
{"id": "C17", "title": "Solving one bus interaction only derives consequences", "statement": "With a bus handler that never rejects or narrows away an accepted tuple, every range constraint derived for a variable from a bus interaction holds in every assignment whose payload the bus accepts; a violation error is returned only if there is no such assignment.", "quantifier": "every sound handler, bus interaction, provider and assignment", "why_tests_cant": "handlers are arbitrary functions", "anchors": ["constraint-solver/src/constraint_system.rs: BusInteraction::{solve, to_range_constraints}", "constraint-solver/src/bus_interaction_handler.rs: handle_bus_interaction_checked"]}
{"id": "C18", "title": "The occurrence index and work queue never miss a constraint", "statement": "After any sequence of extensions, removals and substitutions, every constraint or bus interaction mentioning a variable is found by looking the variable up; and in the work queue, after a variable changes every constraint mentioning it is queued, no item is queued twice.", "quantifier": "every sequence of operations", "why_tests_cant": "an index going stale needs specific interleavings of retain/substitute/extend", "anchors": ["constraint-solver/src/indexed_constraint_system.rs: IndexedConstraintSystem::{retain_algebraic_constraints, retain_bus_interactions, extend, substitute_by_known, substitute_by_unknown}, ConstraintSystemQueue"]}
{"id": "C19", "title": "OpenVM bus handlers never exclude an accepted tuple", "statement": "For each OpenVM lookup bus (bitwise, variable range, tuple range) and the memory bus, every tuple the bus accepts that is within the incoming range constraints is also within the refined range constraints. Where the constraints on the inputs determine the accepted values, the refined constraints admit no other tuples.", "quantifier": "every tuple of field elements, every vector of incoming range constraints", "why_tests_cant": "payload space is p^4; the handlers special-case known inputs", "anchors": ["openvm-bus-interaction-handler/src/bitwise_lookup.rs", "openvm-bus-interaction-handler/src/variable_range_checker.rs", "openvm-bus-interaction-handler/src/tuple_range_checker.rs", "openvm-bus-interaction-handler/src/memory.rs", "openvm-bus-interaction-handler/src/lib.rs: handle_bus_interaction"]}
{"id": "C20", "title": "Pure range-check detection is exact", "statement": "If a bus interaction is reported to be equivalent to a list of range constraints on expressions, then for every assignment the bus accepts the payload exactly when every listed expression is within its range constraint, provided that no variable range check asks for a constant width above the 25 bits of the table (for wider ones the claim is false).", "quantifier": "every payload of expressions, every assignment", "why_tests_cant": "optimizer deletes the interaction and re-creates only the listed constraints", "anchors": ["openvm-bus-interaction-handler/src/lib.rs: pure_range_constraints", "openvm-bus-interaction-handler/src/bitwise_lookup.rs: bitwise_lookup_pure_range_constraints", "openvm-bus-interaction-handler/src/variable_range_checker.rs", "openvm-bus-interaction-handler/src/tuple_range_checker.rs"]}
{"id": "C21", "title": "Batched range checks enforce exactly the requested ranges", "statement": "The bus interactions created for a list of range constraints are only accepted when every expression is within its requested range, and they are accepted whenever this is the case if the ranges end below 2^25; an error is only returned if some range is not a number of bits (ranges of 26 to 29 bits yield unsatisfiable checks instead of an error).", "quantifier": "every list of (expression, range constraint), every assignment", "why_tests_cant": "odd/even pairing and special-casing of byte and tuple checks over lists of any length", "anchors": ["openvm-bus-interaction-handler/src/lib.rs: batch_make_range_constraints"]}
{"id": "C22", "title": "Range-constraint optimization preserves the solution set", "statement": "Replacing pure range-check interactions by re-batched minimal ones preserves exactly the set of satisfying assignments (again for systems without constant widths above 25 bits), the messages on stateful buses and the derived columns, and respects the degree bound.", "quantifier": "every system, every assignment, every solver-provided facts that are sound", "why_tests_cant": "merging and dropping of checks depends on global facts", "anchors": ["autoprecompiles/src/range_constraint_optimizer.rs: optimize_range_constraints"]}
{"id": "C23", "title": "Removing memory accesses preserves memory consistency", "statement": "For every assignment under which the memory accesses of the block are chronologically consistent, the equations added by the memory optimizer hold; conversely under the new equations, removing the matched pairs leaves the net multiset of messages on the memory bus unchanged.", "quantifier": "every list of memory interactions, every assignment, every sound address-difference oracle", "why_tests_cant": "aliasing depends on run-time addresses", "anchors": ["autoprecompiles/src/memory_optimizer.rs: optimize_memory, redundant_memory_interactions_indices"]}
{"id": "C24", "title": "Execution-bus optimization keeps one receive and one send and the net effect", "statement": "Given alternating receive/send interactions on the execution bus, the result keeps exactly the first receive and the last send, and under the added equations the net multiset of messages is unchanged for every assignment.", "quantifier": "every list of bus interactions and assignment", "why_tests_cant": "blocks of any length", "anchors": ["autoprecompiles/src/optimizer.rs: optimize_exec_bus"]}
{"id": "C25", "title": "Low-degree replacement of a lookup is an equivalence", "statement": "When a lookup interaction is replaced by polynomial constraints and range checks, every assignment within the range constraints satisfies the replacement exactly when the bus accepts the original payload.", "quantifier": "every interaction, sound handler, assignment", "why_tests_cant": "the function is only sampled on its domain; correctness needs domain coverage", "anchors": ["autoprecompiles/src/low_degree_bus_interaction_optimizer.rs: LowDegreeBusInteractionOptimizer"]}
{"id": "C26", "title": "Local clean-up passes preserve the solution set", "statement": "Removing trivial constraints, duplicate factors, constraints implied by another, duplicate stateless interactions, and replacing stateless-bus fields with equal expressions preserves exactly the set of satisfying assignments.", "quantifier": "every system and assignment", "why_tests_cant": "mutual-redundancy (two constraints removing each other) needs an order argument over systems of any size", "anchors": ["autoprecompiles/src/constraint_optimizer.rs: trivial_simplifications, remove_trivial_constraints, remove_duplicate_factors, remove_redundant_constraints, remove_equal_bus_interactions, substitute_bus_interaction_fields"]}
{"id": "C27", "title": "Removing free variables preserves satisfiability for every setting of the other variables", "statement": "Every assignment satisfying the reduced system can be changed only on removed variables to satisfy the original system, and every assignment satisfying the original satisfies the reduced system.", "quantifier": "every system, every assignment", "why_tests_cant": "existential statement over values of removed variables", "anchors": ["autoprecompiles/src/constraint_optimizer.rs: remove_free_variables, can_always_be_satisfied_via_free_variable"]}
{"id": "C28", "title": "Removing disconnected columns preserves satisfiability", "statement": "Constraints and interactions kept are exactly those connected (through shared variables) to a stateful bus interaction; if the original system is satisfiable, every solution of the kept part extends to a solution of the original.", "quantifier": "every system and assignment", "why_tests_cant": "connectivity is transitive over arbitrarily long chains", "anchors": ["autoprecompiles/src/constraint_optimizer.rs: remove_disconnected_columns", "constraint-solver/src/reachability.rs", "constraint-solver/src/system_splitter.rs"]}
{"id": "C29", "title": "Simplification by exhaustive search preserves the solution set", "statement": "Replacing constraints by equivalent simpler ones found by enumerating all values of a small set of variables preserves exactly the satisfying assignments.", "quantifier": "every system, provider and assignment", "why_tests_cant": "needs coverage of the whole domain", "anchors": ["autoprecompiles/src/constraint_optimizer.rs: simplify_constraints_using_exhaustive_search"]}
{"id": "C30", "title": "Converting between expression representations preserves values", "statement": "Converting an algebraic expression to grouped form and back yields an expression with the same value in every row; stripping an outer negation from a constraint preserves when it is satisfied.", "quantifier": "every expression and row", "why_tests_cant": "printing of negative coefficients and nested products over all shapes", "anchors": ["autoprecompiles/src/expression_conversion.rs", "autoprecompiles/src/symbolic_machine.rs: symbolic_machine_to_constraint_system, constraint_system_to_symbolic_machine"]}
{"id": "C31", "title": "Guarding a machine makes padding rows inert and keeps real rows unchanged", "statement": "With the validity flag 1 the guarded machine accepts a row exactly when the original machine does and sends the same messages; with the flag 0 no satisfying row sends any message; the all-zero row satisfies the guarded machine; the flag is boolean in every satisfying row.", "quantifier": "every machine and every row", "why_tests_cant": "guard placement is syntax directed; must be right for every expression", "anchors": ["autoprecompiles/src/lib.rs: add_guards, add_guards_constraint, satisfies_zero_witness", "autoprecompiles/src/powdr.rs: make_bool"]}
{"id": "C32", "title": "Instruction columns never collide when blocks are stitched together", "statement": "Allocating columns for the instructions of a block gives pairwise disjoint column ids, keeps each instruction machine's constraints true under the renamed columns exactly when they were true before, and the allocator's next id is larger than all issued ids.", "quantifier": "every list of instruction machines", "why_tests_cant": "block length and column numbering are unbounded", "anchors": ["autoprecompiles/src/powdr.rs: globalize_references, offset_reference_ids", "autoprecompiles/src/lib.rs: ColumnAllocator", "autoprecompiles/src/symbolic_machine_generator.rs: statements_to_symbolic_machines"]}
{"id": "C33", "title": "Basic blocks partition the program", "statement": "The concatenation of the collected blocks is the program; each block is non-empty and starts at the pc of its first instruction; a jump target is only ever the first instruction of a block; a branching instruction only the last; a disallowed instruction forms its own block.", "quantifier": "every program, target set, and instruction classification", "why_tests_cant": "programs of any length", "anchors": ["autoprecompiles/src/blocks/detection.rs: collect_basic_blocks"]}
{"id": "C34", "title": "Superblock counting is exact", "statement": "Non-overlapping occurrence search returns exactly the leftmost greedy set of occurrences, which are genuine, disjoint, and as many as possible; superblocks counted for a run are genuine contiguous subsequences.", "quantifier": "every run and pattern", "why_tests_cant": "combinatorial over sequences of any length", "anchors": ["autoprecompiles/src/blocks/mod.rs: find_non_overlapping, count_superblocks_in_run, detect_superblocks"]}
{"id": "C35", "title": "Selected precompile calls never overlap and the best candidate always wins", "statement": "After resolving candidates, the returned calls cover pairwise disjoint time intervals, every discarded finished candidate overlaps one that outranks it, and the top-ranked candidate is kept.", "quantifier": "every sequence of candidate insertions, condition checks and extractions (history)", "why_tests_cant": "history dependent; arbitrary overlaps", "anchors": ["autoprecompiles/src/execution/candidates.rs: ApcCandidates"]}
{"id": "C36", "title": "Optimistic-condition evaluation equals the declarative check", "statement": "Stepping the optimistic-constraint evaluator through an execution succeeds for n steps exactly when every constraint whose latest referenced step is at most n holds on the recorded history, and values remembered are those read at the referenced step.", "quantifier": "every set of constraints and every execution history", "why_tests_cant": "the evaluator retains only part of history; correctness over unbounded histories", "anchors": ["autoprecompiles/src/execution/evaluator.rs: OptimisticConstraintEvaluator, OptimisticConstraints"]}
{"id": "C37", "title": "Intersecting partitions is relational conjunction, however it is chunked", "statement": "Two distinct elements are equivalent in the intersection exactly when they are equivalent in every input partition; the parallel chunked intersection returns an equivalent partition for every chunking; classes have at least two elements.", "quantifier": "every list of partitions, every chunk size and grouping order", "why_tests_cant": "thread schedule dependent grouping; unbounded data", "anchors": ["autoprecompiles/src/equivalence_classes.rs: Partition"]}
{"id": "C38", "title": "Combining and filtering empirical constraints is conservative", "statement": "A row consistent with either of two sets of empirical constraints is consistent with their combination; filtering a block's constraints keeps exactly those on the requested cells.", "quantifier": "every pair of empirical constraint sets, every row, every predicate", "why_tests_cant": "index bookkeeping over maps of any size", "anchors": ["autoprecompiles/src/empirical_constraints.rs: EmpiricalConstraints::combine_with, BlockEmpiricalConstraints::filtered"]}
{"id": "C39", "title": "Trace rows are taken from disjoint in-bounds slices", "statement": "For every instruction occurrence in every precompile call, the source slice used for its row lies within the source matrix, slices of different occurrences never overlap, and every non-derived column of the precompile row gets the value of the right source column. Derived columns get the value that their method computes from the finished row, padding rows are zero, each trace covers exactly the calls since the last one, and for a block without optimization the trace satisfies the guarded machine and sends the messages of the original instructions.", "quantifier": "every block, number of calls, and widths", "why_tests_cant": "index arithmetic over any number of calls", "anchors": ["autoprecompiles/src/trace_handler.rs: generate_trace", "openvm/src/powdr_extension/executor/mod.rs: execute, OriginalArenas", "openvm/src/powdr_extension/trace_generator/cpu/mod.rs: generate_witness"]}
{"id": "C40", "title": "Goldilocks arithmetic is exact modulo p", "statement": "Addition, subtraction, negation, multiplication (with 128-bit reduction), inversion and canonicalisation on 64-bit words return the mathematically correct residue for every pair of words, with no unintended overflow.", "quantifier": "all 2^128 pairs of words", "why_tests_cant": "carry corner cases have probability about 2^-32; random tests miss them", "anchors": ["number/src/goldilocks.rs: GoldilocksField, reduce128, try_inverse, assume"]}
{"id": "C41", "title": "Field/integer conversions round-trip", "statement": "Converting to an integer and back is the identity, signed conversion returns the unique representative in the symmetric range, and the 31-bit fields' conversions agree with reduction modulo p.", "quantifier": "every field element and integer in the documented range", "why_tests_cant": "boundary at (p-1)/2 and 2^31", "anchors": ["number/src/traits.rs: FieldElement", "number/src/plonky3_macros.rs", "number/src/goldilocks.rs"]}
{"id": "C42", "title": "Rule-based rewrites preserve the solution set (up to replaced variables)", "statement": "Each rewrite rule replaces constraints by ones with the same solutions on the remaining variables.", "quantifier": "every system and assignment meeting the rule's premises", "why_tests_cant": "rules fire on global facts (occurrence, range); their interaction is not sampled by tests", "anchors": ["constraint-solver/src/rule_based_optimizer/rules.rs", "constraint-solver/src/rule_based_optimizer/driver.rs"]}
{"id": "C43", "title": "A composed optimizer run preserves executions", "statement": "Any composition, in any order and number of iterations, of the modelled passes keeps the solution relation: each solution of the input system projects to one of the output and each output solution extends to one of the input.", "quantifier": "every sequence of passes and every system", "why_tests_cant": "the optimizer loops until no change; unbounded pass sequences", "anchors": ["autoprecompiles/src/optimizer.rs: optimize", "autoprecompiles/src/constraint_optimizer.rs: optimize_constraints"]}
{"id": "C44", "title": "Independent subsystems are split without losing or sharing constraints", "statement": "Splitting a system yields subsystems with pairwise disjoint variables whose union contains every constraint mentioning a variable; an assignment satisfies the original exactly when it satisfies every part (constraints without variables aside).", "quantifier": "every system and assignment", "why_tests_cant": "connectivity over arbitrarily long chains", "anchors": ["constraint-solver/src/system_splitter.rs: split_system", "constraint-solver/src/reachability.rs: reachable_variables_except_blocked"]}
{"id": "C45", "title": "Optimistic conditions refer to the right column", "statement": "A limb of a memory access recorded for optimistic conditions is attributed to the instruction and register it came from, never to a column of another instruction.", "quantifier": "every block and optimizer-introduced column", "why_tests_cant": "id collisions depend on counts of columns across instructions", "anchors": ["autoprecompiles/src/optimistic/execution_literals.rs: optimistic_literals", "autoprecompiles/src/lib.rs: ColumnAllocator::is_known_id"]}
{"id": "C46", "title": "Columns written to a CSV file are read back unchanged", "statement": "Writing named columns of field elements to a CSV file and reading the file returns the same names and values, in every rendering mode and for columns of different lengths.", "quantifier": "every non-empty list of columns with names other than the reserved one, every value and rendering mode", "why_tests_cant": "numerals of every element and columns of arbitrary lengths", "anchors": ["number/src/serialize.rs: write_polys_csv_file, read_polys_csv_file"]}
{"id": "C47", "title": "A built precompile stands for its block", "statement": "Building a precompile from a superblock: every execution of the block's instructions one by one that meets the empirical constraints gives a real row of the precompile with the same net effect on memory and the execution bus, in which the columns that the substitutions list have the values of the instructions' rows; every real row of the precompile comes from rows of the instructions that the circuits accept and that follow each other, with the same net effect; rows that are not real send nothing, and the row of zeros is one; and the conditions checked during execution pass exactly if the program counter is at the start of each basic block when it begins.", "quantifier": "every superblock, instruction circuits, empirical constraints, program, witness and history of states", "why_tests_cant": "ranges over all blocks, witnesses and sequences of optimizer passes at once; tests build fixed blocks and compare snapshots", "anchors": ["autoprecompiles/src/lib.rs: build, Apc::new, superblock_pc_constraints, add_guards", "autoprecompiles/src/symbolic_machine_generator.rs: statements_to_symbolic_machine", "autoprecompiles/src/blocks/mod.rs: SuperBlock"]}
{"id": "C48", "title": "The k256 field arithmetic is exact and never overflows", "statement": "On ten-limb representations of elements of the field with 2^256 - 2^32 - 977 elements: within the documented magnitudes, multiplication, squaring, addition, negation, multiplication by small numbers, weak and full normalization, the tests for zero and odd, inversion and square roots never overflow a machine word, fail no debug assertion and give the right element of the field with the documented magnitude; normalization gives the one canonical representation; inversion gives the inverse of every nonzero element; a square root is found exactly for the squares; and the SEC1 encoding and decoding are inverse to each other and accept exactly the encodings of field elements.", "quantifier": "every input whose limbs are within the documented magnitudes, every string of 32 bytes", "why_tests_cant": "a carry or overflow mistake shows on a tiny fraction of 2^320 inputs; tests sample a few", "anchors": ["openvm-riscv/extensions/hints-circuit/src/field10x26_k256.rs: FieldElement10x26 (mul_inner, normalize, normalizes_to_zero, negate, add, invert, sqrt, from_bytes, to_bytes)"]}
{"id": "C49", "title": "The k256 hints answer what the guest asks for", "statement": "For every input element: the inverse hint leaves in the stream the canonical representation of its inverse, which the guest returns unchanged; the square root hint leaves a flag that tells whether the input is a square, followed by a square root of the input or of three times the input, and never panics; the guest returns that flag and that root; and reversing bytes gives the same answer in the VM and outside.", "quantifier": "every input element with limbs of magnitude at most 8, every 32-bit word", "why_tests_cant": "the wrong cases are rare among 2^256 inputs (about one in fifty thousand square roots); tests use a handful of fixed inputs", "anchors": ["openvm-riscv/extensions/hints-circuit/src/executors.rs: K256InverseField10x26SubEx, K256SqrtField10x26SubEx, ReverseBytesSubEx", "openvm-riscv/extensions/hints-guest/src/lib.rs: hint_k256_inverse_field_10x26, hint_k256_sqrt_field_10x26, hint_reverse_bytes, ensure_weakly_normalized_10x26"]}
{"id": "C50", "title": "The GPU generates the trace of the CPU", "statement": "For every set of recorded calls for which trace generation on the CPU succeeds, the GPU trace generator copies the same values, computes the same derived columns, leaves the same padding rows and adds the same amounts to the counters of the lookup tables, and no thread faults or accesses memory that another thread writes.", "quantifier": "every precompile, recorded calls, padding of the original chips, iteration order of the instruction groups and interleaving of the memory accesses of the GPU threads, for sizes that fit the device", "why_tests_cant": "races depend on the schedule and on the height; index overflows only at large sizes; tests compare a few programs", "anchors": ["openvm/src/powdr_extension/trace_generator/cuda/mod.rs: PowdrTraceGeneratorGpu::try_generate_witness, compile_derived_to_gpu, compile_bus_to_gpu", "openvm/cuda/src/apc_tracegen.cu", "openvm/cuda/src/apc_apply_bus.cu", "openvm/cuda/src/expr_eval.cuh"]}
{"id": "C51", "title": "Every lookup is counted once", "statement": "After a trace is generated, the counter of every entry of a lookup table (variable range check, tuple range check, bitwise operation) is the sum of the multiplicities with which the rows of the trace ask for this entry, and a wrong bitwise claim is an error.", "quantifier": "every trace whose requests are for entries of the tables, every entry", "why_tests_cant": "ranges over all entries and all combinations of requests; a collision of two entries shows only for particular values", "anchors": ["openvm/src/powdr_extension/trace_generator/cpu/periphery.rs: SharedPeripheryChips::apply", "openvm/src/powdr_extension/trace_generator/cpu/mod.rs: generate_witness"]}
{"id": "C52", "title": "The best blocks are selected within the limits", "statement": "Given the profile of an execution, the compiler selects different candidate blocks, no more of them than the user asked for, whose precompiles fit into the columns the user allows besides those the machine has anyway. Each selected block saves at least as much per column as every other candidate that fits at that time, where uses that overlap an earlier selected block no longer count; the selection only stops at the limit or when no candidate that is still executed fits. Without cell profile, the blocks are those with the largest value (instructions times executions, or instructions) after the skipped ones.", "quantifier": "every program, profile, set of candidates, budget and limit for which the 32-bit counts and 64-bit products do not overflow, and every priority queue", "why_tests_cant": "overlapping candidates, ties, stale queue entries and budgets interact; a wrong choice is only visible against all other candidates of a particular profile", "anchors": ["autoprecompiles/src/pgo/cell/selection.rs: select_blocks_greedy, count_and_update_execution, Density", "autoprecompiles/src/pgo/cell/mod.rs: CellPgo::create_apcs_with_pgo", "autoprecompiles/src/pgo/instruction.rs: InstructionPgo", "autoprecompiles/src/pgo/none.rs: NonePgo", "openvm/src/customize_exe.rs: compile_apcs"]}
{"id": "C53", "title": "Precompiles are installed where their blocks begin", "statement": "In the program that is run, the opcode of the i-th precompile stands at exactly the address at which its block starts, the original instructions from there on are those of the block, and no other instruction is replaced.", "quantifier": "every program without gaps, every set of its basic blocks in any order", "why_tests_cant": "the position is computed from addresses and step; a shift by one only shows for particular layouts, and a wrong position executes a different block", "anchors": ["openvm/src/customize_exe.rs: setup", "openvm/src/program.rs: Prog", "autoprecompiles/src/blocks/detection.rs: collect_basic_blocks"]}
{"id": "C54", "title": "Every address of code a program refers to is a jump destination", "statement": "The jump destinations found in an executable are exactly the addresses its text and data refer to: its entry, the targets of its jumps, branches and calls, the addresses of code that pairs of instructions load into a register, and those that relocations put into its data. Hence every step of an execution goes to the next instruction or to such an address, or is an indirect jump without offset; a call by two instructions goes to such an address.", "quantifier": "every ELF file that is loaded, with any sections that do not overlap, relocations and instruction decoder, and every step of the machine", "why_tests_cant": "a missed reference makes a block that is entered in the middle; it depends on the instructions around it, on wrapping arithmetic and on relocations that a few programs do not contain", "anchors": ["riscv-elf/src/lib.rs: load_elf_from_buffer, InstructionLifter, AddressMap, pie_relocate_data_sections, static_relocate_data_sections", "riscv-elf/src/rv64.rs: scan_for_jump_targets", "openvm-riscv/src/isa/mod.rs: get_jump_destinations"]}
{"id": "C55", "title": "Every execution is a sequence of complete blocks", "statement": "An execution of a program that starts at a jump destination goes through complete basic blocks, one after the other, and possibly the beginning of one more: it never enters or leaves a block in the middle. So replacing a block by a precompile is possible at every time it is reached.", "quantifier": "every program translated from a loaded ELF file and every execution whose indirect jumps go to jump destinations or behind a branching instruction", "why_tests_cant": "it relates the scan for jump destinations, the detection of blocks and the semantics of all branches, for every path through every program", "anchors": ["openvm-riscv/src/isa/mod.rs: add_extra_targets, get_jump_destinations, branching_opcodes, allowed_opcodes", "openvm-riscv/src/isa/opcode.rs", "autoprecompiles/src/blocks/detection.rs: collect_basic_blocks"]}
{"id": "C56", "title": "Run-time constants keep their value", "statement": "Adding, subtracting, multiplying, negating, dividing and inverting run-time constants, substituting one of their symbols, renaming the symbols and converting them to another kind of expression simplify the expression but never change its value: at run time, whatever the symbols are, the result has the value of the operation on the values, its range constraints are true, and nothing panics as long as no divisor is zero. A constant reported to be zero, one, minus one or nonzero is that, and substituting removes the symbol.", "quantifier": "all symbolic expressions, over all fields, all values of the symbols that satisfy the range constraints written on them, all substitutions", "why_tests_cant": "the simplifications are nested (negating a sum negates its parts, which may cancel), so each rule must be right on every expression that the other rules produce", "anchors": ["constraint-solver/src/symbolic_expression.rs: SymbolicExpression, from_symbol, compute_substitution, substitute, try_to_expression, try_transform_var_type, Add, Sub, Neg, Mul, field_div, field_inverse", "constraint-solver/src/runtime_constant.rs: RuntimeConstant, is_known_zero, is_known_one, is_known_minus_one, is_known_nonzero"]}
{"id": "C57", "title": "Original AIRs become machines, machines become AIRs, and record arenas fit", "statement": "An AIR of the VM becomes a symbolic machine exactly if its constraints and bus interactions only refer to columns of the current row; the machine accepts the same rows and sends the same messages, and its metrics are right. The next row and selectors give an error. Every allowed opcode with an executor gets the machine and metrics of the AIR that executes it, and no other opcode gets one. A machine installed as an AIR has as many columns as the machine, accepts the rows that the machine accepts and sends its messages. The record arenas of an autoprecompile have one pair per AIR, every instruction writes to the arena of its AIR, and no arena overflows while there are at most as many calls as estimated.", "quantifier": "all AIRs, all rows, all tables of opcodes, executors and AIRs, all machines, all blocks with any substitutions, all numbers of calls", "why_tests_cant": "tests see the AIRs of the shipped extensions on few rows; a wrong index or a mixed-up name only shows for particular rows and particular sets of extensions", "anchors": ["openvm/src/utils.rs: OpenVmReference, symbolic_to_algebraic, openvm_bus_interaction_to_powdr", "openvm/src/extraction_utils.rs: OriginalAirs, insert_opcode, airs, get_columns, get_air_metrics, record_arena_dimension_by_air_name_per_apc_call", "openvm/src/powdr_extension/chip.rs: PowdrAir", "openvm/src/powdr_extension/executor/mod.rs: InitializedOriginalArenas, PowdrExecutor::new, CachedInstructionMeta", "autoprecompiles/src/expression.rs: try_convert, WitnessEvaluator"]}
{"id": "C58", "title": "Saved machines and expressions load unchanged, exported systems keep their meaning, printed expressions are unambiguous", "statement": "A symbolic expression, bus interaction or machine that is saved (JSON or CBOR) and loaded again is unchanged, whatever characters its column names contain. A constraint system that is exported is loaded as a machine exactly if all bus ids are numbers, and then has the same constraints, messages and derived columns in every row. Loading only fails if the document is nested deeper than the reader allows; the nesting is that of the operations. A printed expression can be read, with the usual precedences, in exactly one way, which is the expression itself; a printed grouped expression always reads as a formula with the value of the expression.", "quantifier": "all expressions, bus interactions, machines and constraint systems, all column names, all rows, all nesting limits of readers", "why_tests_cant": "tests save and print a few snapshots; names with separators, parentheses in rare combinations of operators, numbers in the upper half of the field and deep sums have unbounded variety", "anchors": ["expression/src/lib.rs: AlgebraicExpression, serialize_binary_operation, serialize_unary_operation", "expression/src/display.rs", "autoprecompiles/src/expression.rs: AlgebraicReference", "autoprecompiles/src/symbolic_machine.rs: SymbolicMachine, SymbolicBusInteraction, SymbolicConstraint", "constraint-solver/src/constraint_system.rs: ConstraintSystem, DerivedVariable, ComputationMethod, BusInteraction", "constraint-solver/src/grouped_expression.rs: Serialize, Display"]}
{"id": "C59", "title": "Range constraints are right, and never panic, on the fixed-size integers of every field", "statement": "The integers that belong to the fields (words of 32 and 64 bits, four limbs of 64 bits) calculate like numbers whenever the result fits: bit operations, addition with carries, subtraction with borrows, shifts, comparison, number of bits, conversions. On them every operation on range constraints gives the result it has on unbounded numbers, without overflow or panic, so whatever is built from range constraints exists and allows every possible value. The only panic is a highest bit outside of the integer. A 64-bit mask keeps its meaning in fields with 32-bit integers. The bytes of a field element are its digits to the base 256, and exactly these bytes are read back; everything else is refused.", "quantifier": "all moduli and sizes of integers that fit, all integers, all range constraints, all terms of operations on them, all byte strings", "why_tests_cant": "tests use Goldilocks and a few BabyBear values; overflow depends on masks and factors next to the modulus, on carries between limbs and on shifts by the width of the word", "anchors": ["constraint-solver/src/range_constraint.rs", "number/src/traits.rs: LargeInt", "number/src/plonky3_macros.rs: BBLargeInt", "number/src/goldilocks.rs: GLLargeInt", "number/src/macros.rs: LargeIntImpl, to_bytes_le, from_bytes_le"]}
{"id": "C60", "title": "Names of addresses are unique, and labels, source locations and notes are put where they belong", "statement": "Making the names of symbols unique always ends; then no name occurs twice, every symbol is still there under its address with its name followed by its address any number of times, there is nothing else, and names change only where others could have them. Looking up an address gives its names, or a label made from the address; looking up with predecessors gives the nearest symbol at or before the address and the distance. Labels of different addresses differ, unless a symbol is named like a made up label. Filtering source locations keeps exactly those in loaded segments and those after the last. In the listing every instruction comes once, in order, after the labels of its address and the locations in it, and the program panics exactly for labels and locations that have no place. A variable's note has the names of all entries around it.", "quantifier": "all lists of symbols, segments, locations, labels and instructions, all trees of debugging information, all sorting and searching functions within their contracts", "why_tests_cant": "the only unit test has two lists of symbols; termination and uniqueness depend on names that already look like renamed ones, and the filter on gaps, equal addresses and the order of segments", "anchors": ["riscv-elf/src/debug_info.rs: dedup_names, SymbolTable, filter_locations_in_text, find_first_idx, read_unit_symbols", "riscv-elf/src/lib.rs: take_initial_mem, take_executable_statements"]}
{"id": "C61", "title": "Walks visit every part of an expression once in the given order, and rewriting during a walk does what it says", "statement": "Visiting an expression or a machine calls the callback on every part, once per occurrence, from left to right, each expression before or behind its parts as asked for, and stops at the first break; constraints come before bus interactions. A callback that may change expressions and does not is called in the same way; one that replaces columns and numbers by others changes exactly those up to a break. Rewriting in post-order always ends and is rewriting bottom up; in pre-order it goes on in what was put in. Setting columns to zero gives the value at zero. Substituting subexpressions replaces the outermost keys if no value contains a key. Unique references are all columns in the order of their ids. Making columns global succeeds exactly for ids 0 to n-1, moves all ids and appends the suffix to all names, and different names stay different.", "quantifier": "all expressions, machines, callbacks with any state and breaks, maps of substitutions, offsets and suffixes", "why_tests_cant": "callbacks are arbitrary functions with state, and termination of rewriting depends on the expressions that are put in", "anchors": ["expression/src/visitors.rs: visit_expressions, visit_expressions_mut, pre_visit_expressions_mut, post_visit_expressions_mut, all_children", "autoprecompiles/src/powdr.rs: make_refs_zero, substitute_subexpressions, unique_references, globalize_references"]}
{"id": "C62", "title": "Exported states of a build are numbered in order, complete for the level, and never overwrite each other", "statement": "With an export path every export succeeds: the machines that the level asks for are written in the order in which they arise to files whose numbers count up from 0, and a rendered machine is in the file of the same name next to its document. No file of a build is overwritten, and builds of different lists of pcs have no file in common. The first file of a build is the machine before optimization and the one with the greatest number is the final machine; between them there is one document per outer step and iteration, and from the third level on one per inner step. The file of substitutions has all that were registered before it, in order. Without a path and with the default level nothing is written.", "quantifier": "all sequences of exports, levels, lists of pcs, numbers of iterations and machines", "why_tests_cant": "file names are built from numbers of any length and free texts, and two of them may be the same only for unlikely lists of pcs", "anchors": ["autoprecompiles/src/export.rs: ExportOptions, ExportLevel", "autoprecompiles/src/lib.rs: build", "autoprecompiles/src/optimizer.rs: optimize", "autoprecompiles/src/constraint_optimizer.rs: optimize_constraints"]}
{"id": "C63", "title": "Profiles count what was executed, and statistics of precompiles count what is in them", "statement": "An execution profile has the pcs of all recorded steps in order and, for each pc, the number of times it was executed; it exists unless nothing was executed or a pc was executed 2^32 times. If the execution is a sequence of complete blocks, all pcs of a block have the count of the block. The statistics of a precompile are: before, the sums over its instructions, in any order and additive over the blocks of a superblock; after, the number of different columns, of constraints and of bus interactions; the widths used for ranking agree with them. In the list of AIRs every precompile is paired with its own widths.", "quantifier": "all sequences of trace events, all blocks and orders of execution, all machines, instructions and lists of precompiles", "why_tests_cant": "counts must be right for runs of any length, and pairing of AIRs with statistics for every list of AIRs", "anchors": ["autoprecompiles/src/execution_profile.rs: execution_profile, PgoCollector", "autoprecompiles/src/evaluation.rs: AirStats, evaluate_apc", "openvm/src/customize_exe.rs: apc_stats", "openvm/src/extraction_utils.rs: AirWidths, AirWidthsDiff", "openvm/src/lib.rs: AirMetrics, air_metrics"]}
{"id": "C64", "title": "The cache of artifacts never changes an answer", "statement": "With a directory for artifacts, every command that finishes answers what it could have answered without the directory, whatever happened before: other commands, commands interrupted after any byte they wrote, lost or truncated files. After all of this the next command can run to its end. An answer is reused by every later command with the same arguments up to the setup and the same executable, whatever its later options, and nothing is written then. Without a directory no file is read or written. Different arguments of a stage have different texts, from which the names of files are computed.", "quantifier": "all histories of commands, interruptions at any operation on files, damage to files, arguments, guest programs and results of builds", "why_tests_cant": "crash points and histories are unbounded, and the texts of arguments must be different for all arguments", "anchors": ["cli-openvm-riscv/src/main.rs: run_command, Pipeline::run_select_apcs, Pipeline::run_setup, stage_hash, hash_guest_exe, load_cached, save_cached, validate_select_args"]}
{"id": "C65", "title": "The printed form of an instruction says which instruction it is", "statement": "Every opcode has its own name. An instruction is printed unless it is arithmetic with unexpected fixed operands, or a load or store with an unexpected address space of registers; then printing panics. Two instructions with the same line are the same if the last two operands are printed or equal. An instruction that was built from numbers is printed with these numbers, and a branch with its signed immediate, if the numbers are below the modulus and the immediate is in the half range around zero.", "quantifier": "all instructions, all opcodes and all arguments of the functions that build instructions", "why_tests_cant": "lines must be different for all pairs of instructions, and immediates right over the whole range of a field", "anchors": ["openvm-riscv/src/isa/instruction_formatter.rs: openvm_instruction_formatter, openvm_opcode_formatter", "openvm/src/lib.rs: format_fe", "openvm-riscv/src/isa/symbolic_instruction_builder.rs", "openvm-riscv/src/isa/opcode.rs"]}
{"id": "C66", "title": "Generating the trace of a precompile counts exactly the lookups of its rows", "statement": "The chips that replay the original instructions of a precompile can be created for every configuration, and each is paired with its own AIR, so the trace of every original AIR is generated by its chip from its records. Over any number of generations for any number of precompiles, a lookup counter of the virtual machine grows by the number of these lookups in the rows of the precompiles, and no counter changes because of what the replaying chips count. A generation panics only for a lookup that the chip of its bus rejects.", "quantifier": "all configurations of extensions, all inventories of chips, all records and lookups, both backends and all sequences of generations", "why_tests_cant": "chips are shared by reference, so one wrong sharing shows only for the configurations and programs that look up through it", "anchors": ["openvm/src/lib.rs: PowdrCpuProverExt, PowdrGpuProverExt", "openvm/src/powdr_extension/trace_generator/cpu/mod.rs: generate_witness", "openvm/src/powdr_extension/trace_generator/cpu/periphery.rs", "openvm/src/powdr_extension/trace_generator/cuda/periphery.rs", "openvm-riscv/src/isa/trace_generator/common.rs: create_dummy_airs", "openvm-riscv/src/isa/trace_generator/cpu.rs: create_dummy_chip_complex_cpu", "openvm-riscv/src/isa/trace_generator/cuda.rs: create_dummy_chip_complex_gpu"]}
{"id": "C67", "title": "A program is traced segment by segment in order, and proving succeeds only if everything was checked", "statement": "Tracing a program succeeds exactly if every segment of the metered execution can be executed from the state in which the one before ended, and no callback panics. The callback is then called once per segment, in order, with the number of the segment and the context made from its records and the memory at its start. If tracing fails, exactly the segments before the failure have been passed on. Proving succeeds exactly if a proof of the caller's executable, configuration and inputs was generated and accepted by the verifier for it; a mock proof with debug assertions succeeds exactly if the constraints of every segment hold.", "quantifier": "all virtual machines, inputs, lists of segments, callbacks, provers and verifiers, with and without recursion, and all heights of segments", "why_tests_cant": "tests run programs that succeed, mostly with one segment; the failing segment can be any of them", "anchors": ["openvm/src/trace_generation.rs: do_with_trace, do_with_trace_with_sdk", "openvm-riscv/src/lib.rs: prove"]}
{"id": "C68", "title": "Identifiers of the rule based optimizer never confuse variables or expressions", "statement": "While rules run, variables and expressions are replaced by numbers. A number always leads back to the item it was given for and keeps doing so when more items are added, different items have different numbers, and numbers of variables have the order of the variables if new ones are larger. An expression over known variables can be transformed, has the same values, and comes back unchanged. Variables that rules request are created exactly once each and only if they occur in a replacement, in the order of their first occurrence; all expressions of a round are translated by one injective reading of the numbers, and each created variable gets one derived variable with the requested method.", "quantifier": "all lists of variables with repetitions, all expressions, all sequences of insertions and requests, all callbacks that return new variables", "why_tests_cant": "requested variables have temporary numbers that overlap with the final ones of others; a mix up needs several requests in a certain order", "anchors": ["constraint-solver/src/rule_based_optimizer/item_db.rs: ItemDB", "constraint-solver/src/rule_based_optimizer/new_var_generator.rs: NewVarGenerator", "constraint-solver/src/rule_based_optimizer/driver.rs: transform_constraint_system, transform_variables, undo_variable_transform, undo_variable_transform_and_recreate_new_variables"]}
{"id": "C69", "title": "Empirical constraints are about what was executed, however the traces are cut", "statement": "Let a program be run on inputs, in runs of blocks, with traces in segments that may end inside of a block, and let the traces be processed whenever a number of segments is in memory. Then the collection of empirical constraints does not panic; each instruction is counted as often as it was executed; the cells of a block known to be equal are exactly those that were equal in all runs of the block; and of the executions of an instruction at most one percent are below the range of a column and at most one percent above. Counts and equalities do not depend on where segments end or how many are kept in memory.", "quantifier": "all programs' blocks, all executions, all ways to cut them into segments, all orders of rows in the traces, all padding, all numbers of inputs and of segments in memory", "why_tests_cant": "the test has one trace in one segment; runs across the end of segments and parts depend on the lengths of executions", "anchors": ["openvm/src/empirical_constraints.rs: detect_empirical_constraints, detect_empirical_constraints_from_input, take_complete_blocks, ConstraintDetector", "autoprecompiles/src/empirical_constraints.rs: EmpiricalConstraints::combine_with, merge_maps"]}
{"id": "C70", "title": "Executing a program with precompiles is executing the program", "statement": "Preparing a precompile for execution succeeds exactly if it has no operands and every instruction of its block can be prepared, and otherwise names a reason. A call executes the instructions of the block one after the other at their own addresses, and fails exactly if a condition of the precompile does not hold on the states in between. So a program with precompiles installed for its basic blocks ends in the same state as without them, in the plain and in the metered mode; a metered call reports one row of the precompile's own chip, nothing for the instructions of the block; calls never fail and the program is never stuck where the original is not. A call of a precompile of several basic blocks succeeds exactly if the program without precompiles goes from the same state through the addresses of these blocks one after the other, and then comes to the same state.", "quantifier": "all programs, all choices of basic blocks, all instruction semantics in which allowed non-branching instructions go on to the next address, all states, both modes, runs of any length", "why_tests_cant": "tests run a few guest programs; the claim is about every program, every selection of blocks and every path through it", "anchors": ["openvm/src/powdr_extension/executor/mod.rs: pre_compute_impl, execute_e12_impl, execute_e1_impl, execute_e2_impl", "openvm/src/powdr_extension/vm.rs: extend_execution", "autoprecompiles/src/lib.rs: superblock_pc_constraints", "openvm/src/customize_exe.rs: setup"]}
{"id": "C71", "title": "The labels of a 64-bit program are its entry point, its symbols and the targets of its jumps", "statement": "For a 64-bit little-endian RISC-V program the destinations reported are exactly its entry point, the symbols at non-zero addresses of executable segments and the targets of the jumps and branches with known targets in executable segments, without duplicates and in ascending order. Every destination that is not a symbol and is jumped to comes with all the jumps that go there, in order, and every destination is the entry point, a symbol, or comes with a jump. The symbols are listed with their names in the order of the table; the base is the lowest executable address. The function panics exactly for other kinds of files and for executable segments that do not lie in the file or are no sequence of 32-bit instructions.", "quantifier": "all file contents, all headers, segments (also overlapping or none), symbol tables and instruction decoders", "why_tests_cant": "tests load a single ELF file; the claim is about every layout of segments, symbols and code", "anchors": ["riscv-elf/src/rv64.rs: compute_jumpdests_from_buffer, scan_for_jump_targets, Rv64Labels, JumpDest"]}
{"id": "C72", "title": "Hint instructions are transpiled, dispatched and answered", "statement": "The transpiler takes exactly the instruction words with the opcode, funct3 and a funct7 of the hints, in any position, and names the hint and the register of its pointer. Installing the hints fails exactly if one of their numbers is taken, and otherwise leaves all other phantom instructions as they were. A guest's call of a hint then leaves in the hint stream what is documented for the bytes at the pointer, and changes nothing else: the bytes reversed; the inverse modulo the k256 prime in 32 bytes, or zero; the inverse or the square root in ten limbs. The two inverse hints agree on every nonzero element.", "quantifier": "all instruction words and streams, all tables of phantom executors, all registers, pointers, machine states and field elements", "why_tests_cant": "tests run a guest with a few inputs in whatever registers the compiler chose; the claim is about every encoding, register and input", "anchors": ["openvm-riscv/extensions/hints-transpiler/src/lib.rs: process_custom, HintsPhantom", "openvm-riscv/extensions/hints-circuit/src/lib.rs: extend_execution", "openvm-riscv/extensions/hints-circuit/src/executors.rs: ReverseBytesSubEx, K256InverseFieldSubEx, K256InverseField10x26SubEx, K256SqrtField10x26SubEx", "openvm-riscv/extensions/hints-guest/src/lib.rs: HintsFunct7, hint_k256_inverse_field"]}
{"id": "C73", "title": "A precompile means the same in another representation of the field", "statement": "Converting a precompile from one type of numbers to another with the same arithmetic keeps its meaning: a row satisfies the constraints exactly if the converted row satisfies the converted constraints, the same messages are sent on the same buses in the same order, and derived columns get the same values. No row is added or lost. Block, substitutions, optimistic constraints and columns are kept, and converting back gives the precompile.", "quantifier": "all precompiles, all rows, all pairs of types of numbers with a conversion that respects their operations", "why_tests_cant": "tests convert a few machines and compare their texts; the claim is about every expression and every row", "anchors": ["autoprecompiles/src/symbolic_machine_generator.rs: convert_apc_field_type, convert_machine_field_type, convert_bus_interaction, convert_expression", "openvm/src/customize_exe.rs: into_field, from_field"]}
{"id": "C74", "title": "The table of buses is the relation it was made from", "statement": "A table of buses is made exactly if no number is used for two types; otherwise it panics and names two types that share a number. The table has exactly the given pairs in the order of the numbers, whatever their order and however often they are repeated. Looking up a number gives its type and panics exactly for numbers not given; looking up a type gives the least of its numbers, if any. For OpenVM the table is made exactly if all buses that exist have different numbers, and then each type has exactly its number.", "quantifier": "all lists of pairs, all types of buses with a comparison that decides equality, all assignments of numbers by OpenVM", "why_tests_cant": "tests use the default table; the claim is about every assignment and every order of the pairs", "anchors": ["autoprecompiles/src/bus_map.rs: from_id_type_pairs, bus_type, all_types_by_id, get_bus_id", "openvm/src/extraction_utils.rs: bus_map", "openvm-bus-interaction-handler/src/bus_map.rs: default_openvm_bus_map"]}
{"id": "C75", "title": "Source locations name the files of their compilation units", "statement": "The source files of a program are those of its compilation units in order, numbered from one, each with its name and its directory (relative ones below that of the unit). The source locations are those of the rows of the line programs that are not the end of a prologue or of a sequence, with their address, line and column, and a file number that, up to version 4 of DWARF, is the number of exactly the file the row means; in version 5 it is the number of the file before it.", "quantifier": "all lists of compilation units, all line programs, all directories", "why_tests_cant": "tests load a few programs from one compiler; the claim is about every number and order of units, files and rows", "anchors": ["riscv-elf/src/debug_info.rs: DebugInfo::new, read_source_locations", "riscv-elf/src/lib.rs: take_source_files_info"]}
{"id": "C76", "title": "The names of functions and variables are those of the debugging information", "statement": "The symbols taken from a compilation unit are exactly the starts of its functions (their own and those of their ranges) that are jump targets, with their linkage names, and its variables at fixed data addresses, with theirs; exactly these variables get notes, with the place of their declaration. Reading fails exactly if an entry is more than one level below the one before it or a name that is needed is not a string. The bytes of a section are those of the last section with its name, and none if there is none. Missing debug information is reported exactly if no section has a name.", "quantifier": "all trees of entries, all lists of attributes, all sets of jump targets and data addresses, all section tables and files", "why_tests_cant": "tests load programs from one compiler; the claim is about every combination and order of entries and attributes", "anchors": ["riscv-elf/src/debug_info.rs: read_unit_symbols, find_attr, get_function_start, get_static_var_address, load_dwarf_sections"]}
{"id": "C77", "title": "Code generation gets the arguments of an instruction, in the order of the assembly language and only in their own form", "statement": "Asking a decoded instruction for its arguments in one of the eleven forms (label, register, registers and value, ...) gives the registers of the instruction in the order of the assembly language, the name of its label and its value as an unsigned word, exactly if the instruction has arguments of this form, and fails otherwise. At most one form fits an instruction, except that three registers can be asked for in two orders and a register, a base and a value also as a memory operand. The arguments that fit no form are listed exactly.", "quantifier": "all arguments of instructions, all symbol tables, all forms", "why_tests_cant": "tests ask for the forms that the sample programs use; the claim is about every combination of present and absent arguments and every value", "anchors": ["riscv-elf/src/lib.rs: WrappedArgs, InstructionArgs::l, r, rri, rrr, rrr2, ri, rr, rrl, rl, rro, empty, HighLevelArgs, HighLevelImmediate", "riscv-types/src/lib.rs: Register::new"]}
{"id": "C78", "title": "The initial memory handed to code generation is that of the file after relocation", "statement": "The entries of the initial memory are, in ascending order of their addresses, exactly the words of the data sections that are not zero after relocation. In a program at a fixed address, a relocated word that points to code becomes the name of that code; in a position-independent one, the last relocation about a word sets it, to a number or to the name of code. Each entry has the note at its address, or else the first symbol there. Names in memory are those of labels. Every byte of data is in its word, unless relocation of a position-independent program sets that word. Entries are aligned if the sections and relocations are. The program starts at a name of its entry point, which has a label.", "quantifier": "all ELF files that load (sections that do not share word addresses), all symbol tables and notes", "why_tests_cant": "tests load a few programs of one compiler and linker; the claim is about every content and every set of relocations", "anchors": ["riscv-elf/src/lib.rs: take_initial_mem, start_function, load_data_section, static_relocate_data_sections, pie_relocate_data_sections, load_elf_from_buffer", "riscv-types/src/lib.rs: MemEntry, SingleDataValue"]}
{"id": "C79", "title": "The listing of a 64-bit program shows its labels, symbols and jumps", "statement": "The tool that lists the labels of a 64-bit program shows a listing whenever the program can be read. Its rows are exactly the entry point, the symbols of code and the targets of known jumps, in ascending order, each with the first named symbol there. The map of labels has exactly the named symbols of code, sorted by name, with those of one name in the order of the file. The jumps shown are exactly the known jumps to addresses without a symbol. The number of jump destinations without symbols is that of such rows, except that it leaves out an entry point without symbol to which no known jump goes.", "quantifier": "all 64-bit ELF files, all decoders", "why_tests_cant": "there is no test of the tool; the claim is about every order and every overlap of symbols and jumps", "anchors": ["riscv-elf/src/bin/elf-labels.rs: print_elf_info_64", "riscv-elf/src/rv64.rs: compute_jumpdests, Rv64Labels"]}
