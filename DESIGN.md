# Formal model of powdr (constraint solver, autoprecompiles, OpenVM bus handlers)

Sources: `/repo` at the pinned commit, read as text. The model lives in `rocq/theories`
(logical name `Verif`), Coq 8.16.1. Properties: `properties.jsonl`; status per
property: `MANIFEST.json`.

## 1. How the model is organised

* `*Model.v` / definition files: executable Gallina functions, one per Rust function,
  each with a comment citing file and lines. No proofs about the properties there.
* `*Facts.v`: lemmas and proofs.
* `Spec*.v`: small independent specifications (what "satisfies", "accepts", "evaluates
  to" mean) that do not use the model's helpers.
* `Props*.v`: the property theorems only, each `exact lemma`, with a non-vacuity
  `Example` and `Print Assumptions`.

### Conventions

* A field element is `F p := {n : N | n <? N.pos p}` with `p : positive`; primality is a
  hypothesis of those theorems that need it. Equality is Leibniz equality.
* `BTreeMap` = association list kept sorted by the key order; `HashMap`/`HashSet` =
  association list / list whose order is either irrelevant or an explicit parameter.
* A Rust panic is an explicit error value (`None`/`Panic`), a loop is structural
  recursion or recursion on fuel with an explicit out-of-fuel value.
* A user-supplied trait implementation (bus handler, policy) is a function parameter of
  the theorem with its contract as an explicit hypothesis.
* Integers (`T::Integer`) are `N`; where machine overflow matters (`number` crate) the
  wrap-around is explicit.

## 2. Plan per property

| id | modelled | how proved |
|----|----------|-----------|
| C01–C03 | `range_constraint.rs` function by function | case analysis on wrap-around, linear arithmetic on representatives, bit lemmas for masks |
| C04–C07 | `grouped_expression.rs` as a nested inductive (quadratic list, linear map, constant) | structural induction; evaluation homomorphism; degree by induction |
| C08–C09 | `algebraic_constraint/solve.rs` | from C01–C06 and field algebra |
| C10 | `inliner.rs` over the indexed system | loop invariant: solution set of (system + recorded definitions) is constant |
| C11 | `solver/constraint_splitter.rs` | modular arithmetic on ranges |
| C12–C13 | `solver/boolean_extractor.rs`, `solver/linearizer.rs` | existential extension of assignments, invariant over history of memo tables |
| C14–C16 | `solver/exhaustive_search.rs`, `solver/base.rs`, `utils.rs` | solver invariant over every operation history |
| C17 | `constraint_system.rs`, `bus_interaction_handler.rs` | from C01, C06 with handler contract as hypothesis |
| C18 | `indexed_constraint_system.rs` | invariant over operation sequences |
| C19–C21 | `openvm-bus-interaction-handler` | handler output against table specifications of the buses |
| C22, C25 | `range_constraint_optimizer.rs`, `low_degree_bus_interaction_optimizer.rs` | from C19–C21 |
| C23 | `memory_optimizer.rs` | loop invariant relating the map of known writes to a chronological memory; net multiset of messages |
| C24 | `optimizer.rs::optimize_exec_bus` | induction on the interaction list |
| C26–C29 | `constraint_optimizer.rs` passes | equivalence of satisfaction, well-founded order for mutual redundancy |
| C30 | `expression_conversion.rs`, `symbolic_machine.rs` | structural induction |
| C31 | `lib.rs::add_guards*` | structural induction |
| C32 | `powdr.rs`, `ColumnAllocator` | induction over the instruction list |
| C33–C34 | `blocks/*` | induction over program / run |
| C35–C36 | `execution/*` | invariants over histories |
| C37–C38 | `equivalence_classes.rs`, `empirical_constraints.rs` | relational characterisation |
| C39 | `trace_handler.rs`, preflight recording, CPU trace generation | index arithmetic; induction over calls and histories; composition with C31 and C32 for unoptimized blocks |
| C40–C41 | `number` crate | 64-bit word arithmetic in `N` with explicit overflow; primality certificate and Fermat's little theorem for inversion |
| C42 | `rule_based_optimizer/rules.rs` (individual rules) | per-rule equivalence, refutations where a rule is unsound |
| C43 | `PipeModel.v`: runs of the optimizer as sequences of pass steps with the solver state and the column counter; `PipeSpec.v`, `PipeMachineSpec.v`: executions and effects | invariant over runs (`PipeForward.v`), backward induction (`PipeBack.v`), conversion between machines and systems (`PipeMachine.v`), an executable run (`PipeRun.v`) |
| C44 | `system_splitter.rs`, `reachability.rs` | reachability invariant |
| C45 | `optimistic/execution_literals.rs`, `algebraic_references.rs`, `execution_constraint_generator.rs` | attribution of literals by simulation of the optimized instruction; conditions are true exactly if the kept equations hold; refutations by witness without the hypotheses |
| C46 | `number/src/serialize.rs` | induction over rows; numerals by induction over digits |
| C47 | `BuildModel.v`: `build` as the composition of the block's machine, the empirical constraints, the optimizer, the guards and the conditions; `BuildSpec.v`: executions of a block, instruction by instruction | the layout of the block's machine (`BuildFacts.v`, `BuildStitch.v`), then C43 for the optimizer, C31 for the guards and C36 for the conditions |
| C48 | `K256Model.v`: the field element functions statement by statement, with overflow checks and debug assertions as explicit failures | bounds for every intermediate result of the product, a ring identity for its value, Pocklington's criterion for the primality of the modulus, exponents of the addition chains, Fermat and Euler for inverses and square roots |
| C49 | executors and guest functions of the hints, with the byte stream between them | composition of C48; the mask of the guest is refuted to be a no-op for square roots |
| C50 | host code that compiles expressions to bytecode, the stack machine and the three kernels; a thread is the tree of its accesses to the shared buffer | threads access disjoint cells, so every interleaving gives what one order gives; bytecode evaluates to the expression; composition with C39's facts about the CPU |
| C51 | the CPU's application of replayed lookups to counters | the counter index of a table entry is injective; sums over the list of requests |
| C52 | counting of occurrences, the density and its comparison, the greedy loop over a priority queue, the three modes of choosing blocks | the count is the carving of the leftmost occurrences (a function, maximal in number); taking blocks out never creates uses of others, so the values in the queue are upper bounds and an entry whose value is unchanged is a best one; every entry is popped finitely often |
| C53 | the replacement of instructions by precompile opcodes in the program | positions of blocks are distinct and follow from C33's partition |
| C54 | loading of an ELF file: decoding of the text, the two passes that lift instructions, relocations, labels | labels = addresses referred to, by induction over the instructions taken one or two at a time; each machine step by cases |
| C55 | jump destinations of an OpenVM program, its block detection and its control flow | each step that leaves a block reaches the beginning of a block (C33, C54); induction over the execution |
| C56 | symbolic expressions and their simplifying operations | a relation says what an expression means (value, range constraints, no zero divisor); each operation preserves it, by induction over expressions and C01/C02 for the range constraints |
| C57 | OpenVM expressions and AIRs, extraction to machines, table of opcodes, the AIR of a machine, layout of record arenas | values of expressions agree by induction; invariant of the table over the opcodes; evaluation over columns ordered by id; counting rows per arena over calls and prefixes of calls |
| C58 | documents of serde's data model, saving and loading of expressions and machines, export of constraint systems, printing as lists of words | round trip by induction; values of loaded sums by induction over summands; the printed words derive the expression in a grammar, and the grammar is unambiguous by induction over the length |
| C59 | the integer types of the fields as records of operations that can panic, with instances for words and for limbs; range constraints on any such integers | the instances calculate like numbers, by induction over limbs and by comparing bits; each operation is a refinement of the one on numbers; terms of operations by induction |
| C60 | symbols as pairs of bytes and addresses, the passes over them, the table, the filter and the two merges as functions on lists, the name stack on a walk through a tree | the number of names that do not end with their address decreases in every pass; groups of a sorted list; induction over segments, instructions and trees |
| C61 | walks as functions on the callback's state with a bound for the depth of recursion where expressions change; maps as sorted lists; expressions with names | induction over expressions and the bound; results do not depend on the bound; the sorted list of ids against contiguous ids; refinement to the model without names |
| C62 | the options as a state, exports as a list of operations that write named files or panic; the exports of a build as such a list | a formula for the files of a list of operations by induction; names as groups of digits that can be read back |
| C63 | events as lists of named fields, maps as pairs, statistics as records of numbers, AIRs with names and metrics | invariants of the counting loop; sums by induction over lists and permutations |
| C64 | files as a map, commands as relations with lists of operations on files, interruption as a prefix of them, hashing as a function without collisions on what is hashed | invariant over histories: every file is a beginning of a possible result for its name |
| C65 | instructions as records of canonical numbers, lines as texts | unique reading of lists of separators and numbers; a check of the table of names |
| C66 | chips of the periphery as locations in a heap of counters; extensions as lists of what they need and add | a private set of locations that all dummy chips stay in; alignment of AIRs and chips by induction over extensions |
| C67 | the loop over segments with the state that is taken out of the instance and the memory on the device; OpenVM's executors, provers and verifiers as parameters | induction over the segments, with a relation that links the states |
| C68 | databases as list and reverse map; transformation of expressions with a function that has a state; requests with final identifiers | invariant of databases; a run over the occurrences of variables whose result is one function; sorted lists are determined by their elements |
| C69 | traces as rows of chips in segments; the loop over segments with its pending rows; what is known as in C38 | invariant of the loop: pending rows are the beginning of the runs that are not processed; composition with C38 |
| C70 | preparing and executing a precompile in both modes, the table of executors, a loop that fetches and executes; instructions are functions on states | a call is a run through the evaluator of C36; simulation in both directions between the program and the program with the marks of C53; for superblocks (`PropsSuper.v`), a call succeeds exactly if the program takes the same addresses, by induction over the instructions |
| C71 | words of a segment, the scan with the pending AUIPC, ordered sets and maps, symbols, base; the ELF parser and the decoder of instructions are parameters | the instructions are related to the bytes of the file by a four-step induction; the scan lists exactly the known jumps by address; folds over jumps, segments and symbols keep sets and maps sorted |
| C72 | words of the format R, the transpiler with its shifts and masks, the table of phantom executors, a machine of bytes in registers and memory; the executors of C49 and the one in 32 bytes | arithmetic of the fields of a word in both directions; a call is decoded, found and read; Fermat's theorem for the modulus proved prime in C48 |
| C73 | expressions, machines and precompiles over any type of numbers, the conversion; the meaning of a machine on a row in a type of numbers | induction over expressions |
| C74 | the table as a list in the order of its numbers, entering pairs, the lookups, the pairs of OpenVM | a table is an ascending list; ascending lists with the same members are equal |
| C75 | units with files and rows as gimli reads them, the loop over the units, the join of paths, the numbering of files; the numbering of DWARF 4 and 5 as specification | induction over the units with the files read so far |
| C76 | entries as lists of attributes, the first attribute of a kind, what is read of functions and variables, then the model of C60; the table of sections | induction over the entries; the first attribute as a split of the list |
| C77 | the arguments with their optional parts and the eleven requests | cases of the present and absent parts; arithmetic modulo 2^32 |
| C78 | the initial memory of the loaded program of C54, with names of the table of C60 | the map of words after each pass, by induction over bytes, sections and relocations |
| C79 | the listing as the list of its rows, on top of the labels of C71 | the theorems of C71; stable insertion sort; lists without duplicates that have the same elements |

## 3. Trusted base

* Coq 8.16.1 kernel (and `vm_compute` where used for closed computations).
* `Print Assumptions` is printed for every property theorem at the end of its `Props*.v`
  file. Every one of them answers "Closed under the global context": no axioms, neither of
  the standard library nor of ours. (`coqchk` lists seven constants of `Coq.ssr.ssrunder`
  because a library that is loaded declares them; no theorem depends on them.)
* The reading of the Rust sources into Gallina (cited file and lines).
* Oracles: bus interaction handlers, memory bus interfaces, instruction handlers and
  `HashMap` iteration orders are parameters; each theorem states the contract it needs.

### Modelled files

| file in /repo | model |
|---|---|
| `constraint-solver/src/range_constraint.rs` | `RangeModel.v` |
| `constraint-solver/src/grouped_expression.rs` | `ExprModel.v` |
| `constraint-solver/src/algebraic_constraint/*.rs` | `SolveModel.v` |
| `constraint-solver/src/constraint_system.rs`, `indexed_constraint_system.rs` | `SystemModel.v`, `BusModel.v` |
| `constraint-solver/src/inliner.rs` | `InlinerModel.v` |
| `constraint-solver/src/solver/constraint_splitter.rs` | `SplitterModel.v` |
| `constraint-solver/src/solver/{boolean_extractor,linearizer}.rs` | `BoolLinModel.v` |
| `constraint-solver/src/solver/exhaustive_search.rs`, `utils.rs` | `SearchModel.v` |
| `constraint-solver/src/solver/base.rs` | `BaseModel.v` |
| `openvm-bus-interaction-handler/src/*.rs` (bitwise, tuple, variable range checker, memory, batching) | `OvmModel.v` |
| `autoprecompiles/src/range_constraint_optimizer.rs` | `OvmModel.v` |
| `autoprecompiles/src/blocks/*.rs` | `BlocksModel.v` |
| `autoprecompiles/src/execution/*.rs` | `ExecModel.v` |
| `autoprecompiles/src/equivalence_classes.rs` | `PartModel.v` |
| `autoprecompiles/src/empirical_constraints.rs`, `openvm/src/empirical_constraints.rs` (detection) | `EmpModel.v` |
| `expression/src/lib.rs`, `autoprecompiles/src/{expression_conversion,symbolic_machine,symbolic_machine_generator,powdr}.rs`, guards and column allocator of `autoprecompiles/src/lib.rs` | `SymModel.v` |
| `autoprecompiles/src/memory_optimizer.rs`, `openvm-bus-interaction-handler/src/memory_bus_interaction.rs`, `optimize_exec_bus` in `autoprecompiles/src/optimizer.rs` | `MemModel.v` | the hash map of memory contents is a list visited in the order of a parameter permutation; the solver is a parameter, instantiated with the solver model in `C23_with_solver` |
| clean-up passes of `autoprecompiles/src/constraint_optimizer.rs`, `constraint-solver/src/{reachability,system_splitter}.rs` | `PassModel.v` | the lookup of constraints by variables is a parameter; its contract is proved for the index in `C18_lookup_positions` and `C18_lookup_fresh`; the solver's answers are parameters, instantiated with the solver model in `C26_with_solver` |
| `simplify_constraints_using_exhaustive_search` in `autoprecompiles/src/constraint_optimizer.rs` | `ExhModel.v` | maps from expressions are association lists; the order of the added constraints is a parameter |
| `autoprecompiles/src/low_degree_bus_interaction_optimizer.rs` | `LowModel.v` | the range oracle is a parameter, instantiated with the solver model in `C25_openvm`; the contract on handlers and range checks is proved for OpenVM in `LowOvm.v`; the program table is a parameter |
| `constraint-solver/src/rule_based_optimizer/{rules,driver,environment}.rs` | `RuleModel.v` | datalog rules are inductive predicates (the rule engine computes their least fixed point); the driver is a relation: any number of rounds, any order of and any choice among the output of the rules; identifiers of expressions and variables are replaced by what they stand for, their orders are arbitrary relations |
| `number/src/goldilocks.rs` | `GoldModel.v` | machine words are numbers with explicit overflow; the inline assembly is modelled by its effect on registers and carry flag; a failed `assume` is a failure; parsing is split into reading of digits and conversion |
| `number/src/{plonky3_macros,traits,lib,serialize}.rs` (conversions, signed integers, `log2_exact`, CSV files) | `NumModel.v` | arithmetic and canonical conversion of the plonky3 types are the library's, by contract; CSV quoting, white space and the numeral extensions `+` and `_` are left out; the arkworks field Bn254 is not modelled |
| `autoprecompiles/src/trace_handler.rs`, `openvm/src/powdr_extension/{executor/mod.rs, trace_generator/cpu/mod.rs}` (recording of original rows, filling of the trace) | `TraceModel.v` | a record is represented by the row its chip makes of it; by contract a chip makes one row of the width of its air of every record, in order, followed by padding; arenas are looked up by air instead of by a cached index; execution errors, metrics and the GPU version are left out |
| `autoprecompiles/src/optimistic/{execution_literals,algebraic_references,execution_constraint_generator}.rs` and their use in `autoprecompiles/src/lib.rs` | `OptModel.v` | the optimizer is a parameter; its contract (`optimizes` in `OptSpec.v`) is that satisfying rows extend to the new columns with the same effect on the memory |
| `autoprecompiles/src/optimizer.rs` (`optimize`, the loop and the final checks), `optimize_constraints` in `autoprecompiles/src/constraint_optimizer.rs` (order of the passes) | `PipeModel.v` | a run is a sequence of steps of the pass models above; the test that ends the loop is modelled by any number of rounds, and the statistics and logging are left out; `PipeRun.v` computes runs and is proved to give runs of the relation; the specification of executions of a machine is `PipeSpec.v` and `PipeMachineSpec.v` |
| `autoprecompiles/src/lib.rs` (`build`, `Apc::new`, `superblock_pc_constraints`), `blocks/mod.rs` (`instructions`, `instruction_indexed_start_pcs`) | `BuildModel.v` | a relation, since the optimizer is one; the empirical constraints are given as expressions over the block's columns (see C38 and C45 for how they are made); exports and metrics are left out |
| `openvm-riscv/extensions/hints-circuit/src/field10x26_k256.rs`, `executors.rs`, `hints-guest/src/lib.rs` | `K256Model.v` | generated statement by statement from the text of the code for `mul_inner`, `from_bytes_unchecked` and `to_bytes`; constant-time selections are plain conditionals; a `CtOption` is an option; the inverse on 32-byte encodings (`K256InverseFieldSubEx`) is a call of the crate crypto_bigint and is left out, as are guest memory and the stream's field elements (a byte stands for itself) |
| `openvm/src/powdr_extension/trace_generator/cuda/mod.rs`, `openvm/src/cuda_abi.rs`, `openvm/cuda/src/*.cu*`, `trace_generator/cpu/periphery.rs` (`apply`) | `CudaModel.v` | threads interleave at single accesses to the output buffer; memory is sequentially consistent (the proof shows that no cell is accessed by two threads, so that weaker models agree); a failed device assertion or an access out of bounds is a fault; kernels run one after the other (same stream); the counters of the lookup chips belong to OpenVM and are taken to be atomic; the dummy traces of the original chips are inputs |
| `autoprecompiles/src/pgo/*`, `openvm/src/customize_exe.rs` (`compile_apcs`, `setup`), `openvm/src/program.rs` (`Prog`) | `SelModel.v` | the priority queue is an oracle that returns a maximal entry (a queue with this property is given); widths before and after and failures of building a candidate are an arbitrary function of the superblock; the limits of the JSON export and the progress output are left out; release-mode (wrapping) arithmetic |
| `riscv-elf/src/lib.rs` (`load_elf_from_buffer` and what it calls), `riscv-elf/src/rv64.rs` (`scan_for_jump_targets`) | `ElfModel.v` | the instruction decoder (crate raki) is a parameter, and so is what the crate goblin parses out of the file; without debug information |
| `openvm-riscv/src/isa/mod.rs` (`get_jump_destinations`, `add_extra_targets`), `isa/opcode.rs` (branching and allowed opcodes) | `ElfModel.v` | C55 assumes that the transpiler of OpenVM keeps addresses and offsets of jumps (`translated`), and that indirect jumps go to a label or behind a branching instruction (return addresses) |
| `constraint-solver/src/symbolic_expression.rs`, `runtime_constant.rs` | `SeModel.v` | the type of symbols has a decidable equality; printing is not modelled; the target of `try_to_expression` is any type whose operations compute |
| `openvm/src/utils.rs`, `extraction_utils.rs` (AIRs, metrics, arena dimensions), `powdr_extension/chip.rs`, `executor/mod.rs` (arena layout) | `AirModel.v` | names are numbers; an AIR is the list of its symbolic constraints and interactions (OpenVM's symbolic builder is trusted); a record is one row of an arena; the trace for the metrics feature is left out |
| `expression/src/lib.rs` (serde attributes), `display.rs`, `autoprecompiles/src/expression.rs` 50-79, `symbolic_machine.rs`, `constraint_system.rs`, `grouped_expression.rs` (`Serialize`, `Display`) | `JsonModel.v` | the text layer of JSON/CBOR (documents are trees), unit variants written as maps with a null, numbers between the modulus of Goldilocks and 2^64 are reduced when they are read, names and numbers are single words when printed; what serde's derived code does is trusted as written in the model |
| `number/src/{traits,plonky3_macros,goldilocks,macros}.rs` (`LargeInt` and its implementations, bytes of `macros.rs`), `constraint-solver/src/range_constraint.rs` on top of them | `WordModel.v` | overflow of words is a panic, as in builds with overflow checks (none occurs); ark_ff is not part of the repository and could not be consulted: its carry, borrow, comparison and bit length loops, and its panic on unreduced integers, are assumptions about that library; `BigUint` is a number; without printing and hexadecimal input |
| `riscv-elf/src/debug_info.rs` (names, symbol table, filter of locations, name stack and notes), `riscv-elf/src/lib.rs` 302-391 | `DbgModel.v` | what gimli and goblin return is the input: symbols, locations, and the entries of a unit with their changes of depth, which are assumed to be a walk through a tree; `binary_search_by_key` and `sort_unstable_by_key` are any functions within their contracts; file, line and column of a location are one number; a note is its name and its place, without the words around the place; iterators are read to their end; the sum of address and size of an instruction does not overflow |
| `expression/src/visitors.rs`, `autoprecompiles/src/powdr.rs` | `VisitModel.v` | a callback is a function on what it has captured; the children of expressions and machines are written out, and places are values that are put back; offsets of ids do not overflow 64 bits; `BTreeMap` is a sorted list, or a list with different keys if it is only searched |
| `autoprecompiles/src/export.rs`, calls in `lib.rs`, `optimizer.rs`, `constraint_optimizer.rs` | `ExportModel.v` | names inside one directory; writing a file succeeds; what is in a document is a parameter (C60 has the format of machines); texts of substitutions are already printed; the numbers do not overflow |
| `autoprecompiles/src/execution_profile.rs`, `evaluation.rs`, `stats_logger.rs` (what is counted), statistics in `openvm/src/customize_exe.rs`, `extraction_utils.rs`, `lib.rs` | `ProfileModel.v` | events reach the collector in the order of execution; `usize` does not overflow; printing with floating point numbers is left out; the names of AIRs are given |
| `cli-openvm-riscv/src/main.rs` (arguments, validation, stages, cache) | `CacheModel.v` | building and setting up are relations; `DefaultHasher` is a function, and theorems assume that it has no collision among the hashed values; CBOR values can be read from all of their bytes and not from fewer; commands do not run at the same time; paths are valid Unicode |
| `openvm-riscv/src/isa/instruction_formatter.rs`, `symbolic_instruction_builder.rs`, `format_fe` in `openvm/src/lib.rs` | `FormatModel.v` | field elements are canonical numbers, and are printed as such; the numbers of opcodes are those of the tests in `opcode.rs` |
| `openvm-riscv/src/isa/trace_generator/{common,cpu,cuda}.rs`, `trace_generator/{cpu,cuda}/periphery.rs`, the prover extensions in `openvm/src/lib.rs`, the chips in `cpu/mod.rs` | `DummyModel.v` | OpenVM's inventories by contract: `next_air` compares the AIR at the next position, extensions take the first chip of a type or add one, the system adds its own range checker; the values in traces are those of C45 |
| `openvm/src/trace_generation.rs`, `prove` in `openvm-riscv/src/lib.rs` | `SegmentModel.v` | metered and preflight execution, proving contexts, `debug_proving_ctx`, provers and verifiers of OpenVM are parameters; log messages are left out |
| `rule_based_optimizer/{item_db,new_var_generator}.rs`, the transformations in `driver.rs` 255-290 and 452-514 | `IdModel.v` | hash maps as lists; justifies that `RuleModel.v` has no identifiers |
| `openvm/src/empirical_constraints.rs` 30-252, 308-329, 361-431 | `CollectModel.v` | rows come with the values of their execution bus interaction; names of columns are not modelled; executions are runs of blocks as in C55 |
| `openvm/src/powdr_extension/executor/mod.rs` 189-194, 319-453, `openvm/src/powdr_extension/vm.rs` 94-118 | `SoftModel.v` | OpenVM's loop, the functions of the original instructions and the choice of the precompile at a marked address are assumed as written there; raw memory of prepared data and page accounting are left out |
| `riscv-elf/src/rv64.rs` 12-258 | `WideModel.v` | the ELF parser (goblin) and the decoder (raki) are parameters; the text of a jump is its opcode and registers; log messages are left out; no overflow of addresses |
| `openvm-riscv/extensions/hints-transpiler/src/lib.rs` 22-66, `hints-circuit/src/lib.rs` 37-59, `hints-circuit/src/executors.rs`, `hints-guest/src/lib.rs` 9-67, 83-115 | `HintModel.v` | the assembler macro, OpenVM's phantom executor, its memory and register reads, and the modular inverse of crypto_bigint are written as what they are documented to do |
| `autoprecompiles/src/symbolic_machine_generator.rs` 15-112 | `RetypeModel.v` | the two types of numbers and the conversion are parameters; C73 assumes that the conversion respects the operations (for BabyBear: that the two libraries implement the same field) |
| `autoprecompiles/src/bus_map.rs`, `openvm/src/extraction_utils.rs` 312-359, `openvm-bus-interaction-handler/src/bus_map.rs` 10-58 | `BusmapModel.v` | the numbers of the buses are what OpenVM gives; the texts of the types are left out |
| `riscv-elf/src/debug_info.rs` 70-92, 118-178, `riscv-elf/src/lib.rs` 289-300 | `LineModel.v` | what gimli reads is given; strings that are not UTF-8 (an error) are left out; `Path::join` as on Unix |
| `riscv-elf/src/debug_info.rs` 182-398 | `AttrModel.v` | gimli's attribute values are resolved strings, addresses and ranges; errors in gimli's own parsing are left out, except values of the wrong kind |
| `riscv-elf/src/lib.rs` 402-589, 670-713 | `ArgsModel.v` | the texts of the errors, which only show the arguments; the request `insn_args` of code generation itself |
| `riscv-elf/src/lib.rs` 302-324, 398-400 | `InitModel.v` | the notes are a function of the address; `addr += 4` past 2^32 (excluded by `words_ok`) |
| `riscv-elf/src/bin/elf-labels.rs` 157-245 | `ToolModel.v` | the listing is the list of its rows: headings, padding and digits are left out; the order of text is that of bytes |

## 4. Not modelled

Rust memory model, the text layer of serde, tracing/logging, thread scheduling of rayon (chunkings are
quantified over), proof generation in OpenVM, the GPU's chips of OpenVM, the byte format of ELF files and of DWARF (line programs, attributes, address ranges). Hash maps
and B-tree maps are modelled by their observable behaviour.

## 5. Findings

Each finding is a theorem with a concrete witness, unless marked otherwise.

* `C15_retain_refuted`: `BaseSolver::retain_variables` panics if a range constraint added from
  outside has determined a variable that no solve call has substituted yet.
* `C20_wide_refuted`, `C21_wide_refuted`, `C22_wide_refuted`: a range check with 26 to 29 bits
  passes the pure range constraint interface (which has no limit) but is not supported by the
  25-bit table, so replacing range constraints by such a check makes the system unsatisfiable.
* `C34_empty_pattern`: `find_non_overlapping` does not terminate for an empty needle (no caller
  passes one).
* `C35_maximal_refuted`: the calls extracted from the snapshots are not always a set to which no
  further call could be added.
* `C38_widths_refuted`: combining ranges of different lengths for one pc does not widen the
  surplus columns.
* `C38_filtered_twice_refuted`: `BlockEmpiricalConstraints::filtered` uses the position of a range
  instead of its column, so filtering twice keeps wrong columns.
* `C31_degree_refuted`: `add_guards` panics (its assertion about degrees) for a machine with a
  multiplicity of the machine's own degree, for example a machine that is linear.
* Not a theorem: assigning `X := value / Y` in the solver drops the range constraint of `X`
  (information is lost, nothing unsound).
* Not a theorem: the boolean extractor skips `right = 0` if the memo table holds `Some z` for it
  (incomplete only).
* `C27_lookup_refuted`: `remove_free_variables` removes a lookup whose only non-constant field is linear in
  a variable that occurs nowhere else, also if the coefficient of the variable is another variable; the result then accepts
  assignments (coefficient zero) that do not extend to the original.
* `C28_unsatisfiable_refuted`, `C44_constant_refuted`: contradictions that are not connected to a stateful
  interaction, and constraints without variables, are dropped.
* `C26_panics`: `remove_duplicate_factors` panics exactly if a constraint is a non-zero constant.
* `C25_single_input_refuted`: the low-degree optimizer panics ("multiple hypotheses") if the solver has derived the
  value of a field of a lookup but has not substituted it; `C25_no_panic` excludes this case.
* `C25_unknown_table_refuted`: it drops a lookup in a table the handler knows nothing about (the program table) if all
  fields have derived values; `C25_wide_constant_refuted`: it replaces a bitwise lookup with a constant operand that is
  no byte, which no assignment satisfies, by a satisfiable constraint.
* `C42_circular_refuted`: the rule that combines two products uses range constraints that were derived from the constraints it
  replaces (`v * (v - 1)` with `w * (v - 1)` and a range check of `w`); the result accepts values of `v` that are sent to memory
  and were impossible before.  `C42_round_back_partial` holds for assignments of which the range constraints are true.
* `C42_zero_unchecked_refuted`: the rule for zero tests does not check the range of the difference; a run excludes an
  assignment that the input accepts.  `C42_run` assumes for systems with zero tests that the markers are right;
  `C42_run_quadratic` does not need this.
* `C42_wrap_refuted`: the test that a sum does not wrap around adds 64-bit words; for the Goldilocks field the addition
  overflows and non-zero variables are taken to be zero (in a build with overflow checks: a panic).
* `C42_unused_refuted`: a derived variable is added although the replacement that needs it is dropped.
* `C40_deserialize_refuted`: the derived `Deserialize` of `GoldilocksField` accepts words that are not canonical, against the
  invariant the code relies on; such an element is congruent to zero without being zero, and addition or negation panics (wraps
  in a release build).
* `C41_small_signed_refuted`: `From<i64>` and `From<i32>` of the 31-bit fields panic for integers outside `[-p, p)`, although
  the comment promises a canonical result; Goldilocks reduces.
* `C41_small_numeral_refuted`: `from_str_radix` of the 31-bit fields panics for numerals in `[p, 2^32)` instead of returning an
  error, and so does deserialisation; `C41_large_int_refuted`: `BBLargeInt::from(u64)` drops the high half.
* `C46_signed_mode_refuted`: the CSV mode `SignedBase10` never writes a sign, because `Display` prints the canonical value.
* `C39_circular_refuted`: inlining replaces columns in the methods of derived columns. If the constraint that defines a derived
  column `d = x / c` is used to inline `x := c * d`, the method becomes `(c * d) / c`; the trace generator evaluates it with
  `d = 0`, and the trace sends other messages than the original instructions.
* `C39_missing_refuted`: the last simplification drops derived columns that no constraint mentions, even if the method of another
  derived column needs them; the trace generator then panics on the missing column.
* `C45_collision_refuted`: the literals of an execution are found by optimizing each instruction with an allocator that only
  knows the columns of that instruction; a column the optimizer introduces for it gets the id of the next instruction's first
  column, and `is_known_id` takes it for that column. A condition on that column is then checked against a register of
  another instruction. `C45_attribution` needs that the memory arguments of all but the last optimized instruction are
  no new columns.
* `C45_unsettled_refuted`: if an instruction accesses a register twice (with an access of a register with a symbolic pointer in
  between, so that the memory optimizer keeps both), what the second access reads is taken for the value before the instruction. OpenVM's
  RISC-V instructions do not do this; for other instruction sets it is a condition on the adapter.
* `C43_result` states what the final checks of the optimizer give: the fields of bus interactions are compared with the
  degree bound for constraints, not with the one for bus interactions.
* C43 is partial: the direction from the optimized machine to the input machine needs `reversible` for the steps that
  remove free variables, replace lookups by polynomials and work by rules.  It is false without it, as
  `C27_lookup_refuted`, `C25_*_refuted` and `C42_circular_refuted` show for a single step, and
  `C28_unsatisfiable_refuted` shows that the input machine must have an execution.
* C47: `build` does not include the empirical constraints in the conditions that are checked during execution (a comment
  in the code says that this is still missing).  `C47_empirical_refuted` shows the effect: an execution meets the
  conditions of a precompile, but no row of the precompile has its effect.  `C47_complete` therefore has the empirical
  constraints as a hypothesis.
* C47 is partial for the same reason as C43: `C47_sound_partial` needs its conditions on the run of the optimizer.
* `C49_sqrt_mask_refuted`: the executor of the square root hint writes the result of `sqrt` without normalizing it, and the
  third limb of a product may have 27 bits.  The guest keeps only 26 bits of it, so it returns something that is not a root
  although the prover is honest.  The witness is the field element 338398.  The inverse hint normalizes and is not
  affected.  About one square root in fifty thousand is.
* `C50_stack_refuted`: nothing bounds the depth of an expression when it is compiled for the GPU, and the stack of the kernel
  holds 16 values.  A right-nested sum of 17 columns is fine on the CPU and faults on the GPU.
* `C50_wide_refuted`: the offset of a column is cut to 32 bits when expressions are compiled: with 2^20 rows, column 4096 is
  read as column 0.
* `C50_chips_refuted`: on the GPU trace generation panics if the VM lacks the bitwise or the tuple range check chip, even if
  the machine does not use it; the CPU accepts this.
* `C50_numerator_refuted`: the GPU panics if the numerator of a derived column mentions a column that is not in the machine;
  the CPU does only if the divisor is not zero.
* `C50_unknown_bus_refuted`: a lookup on a bus without a chip is an error on the CPU and is ignored on the GPU.
* `C52_budget_refuted`: if the user allows fewer columns than the machine has without precompiles, `compile_apcs` subtracts with
  wrap-around in a release build and the column limit is lost.
* `C52_wider_refuted`: if one precompile is wider than its block, the value per use wraps around and the comparison of densities
  panics, although the other candidates are fine.
* `C52_wrap_refuted`, `C52_instruction_refuted`: counts and the value of mode "instruction" are 32-bit numbers; 2^32 executions of a block count as
  none.
* `C52_zero_cost_refuted`: the comparison of densities is no order if a candidate has no columns.
* C52: a limit of zero blocks still selects one; the caller returns early in this case.  The comment of `select_blocks_greedy` promises counts that it does
  not return.
* `C53_gap_refuted`: blocks are numbered by the position among the instructions of a program, and the precompiles are installed by the
  position among its slots.  If the program has a slot without an instruction, later precompiles are installed one slot too early, and
  looking for superblocks in a real execution panics.
* `C54_destination_refuted`: `auipc a0; addi a1, a0, lo` with a text address is lifted to `la a0`, so `a1` is not written (a comment in the code
  says that the *other* register is not set: `rd_ui` is used where `rd_addi` is meant).  Lifted instructions are not used for OpenVM, only labels are.
* `C54_entered_refuted`: for such pairs (and for `auipc; jalr`) it is not checked whether there is a jump to the second instruction; the lifted program has no
  instruction at the label.
* `C54_end_refuted`: the first address after a section counts as inside (`>` instead of `>=`), so pointers to the end of the text are labels; harmless
  for the blocks.
* `C54_apart_refuted`: an absolute address (`lui` with a HI20 relocation) is only found if the `addi` follows directly.  Otherwise its target is silently
  missing from the jump destinations, and an indirect jump to it enters a block in the middle.
* `C54_wide_refuted`: the scan of 64-bit programs compares the destination of `jalr` with the source register of `auipc`, which has none; so calls by
  `auipc; jalr` are never found (and the target would be computed from the address of the `jalr`).  `C54_wide` says what it finds.
* C54: for `auipc; jalr` with an odd sum the label is odd, but the machine clears the lowest bit (`C54_call`).
* `C55_backward_refuted`: the target of a bigint branch is its address plus the canonical form of the offset; for a negative offset this is
  about 2^31 too large, and the real target may be inside of a block.  C55 assumes that these branches go forward.
* `C55_gap_refuted`: a program with a slot without an instruction panics there.
* `C56_zero_divisor`: the operations on run-time constants do not panic on operands with nonzero divisors.  Dividing a number by zero
  panics, also inside of `substitute`; dividing any other expression by zero goes through and leaves an expression without a value.
  `try_to_expression` is documented to fail if there is a division, but it succeeds if the divisor is a number.
* `C57_same_name_refuted`: AIRs are only told apart by their names.  If two AIRs of the configuration have the same name, the opcodes of
  both get the machine of the AIR whose opcode comes first in the (hash-ordered) list of allowed opcodes, without an error.  C57_opcodes
  assumes distinct names.
* `C58_depth_refuted`: sums are saved as left-nested lists, so a document is nested as deeply as its longest sum has terms.  The readers of
  JSON and CBOR refuse documents that are nested deeper than a fixed limit (128 by default), so a machine with a constraint that is a sum
  of some 130 columns can be saved to the cache but not loaded again.  `C58_depth` shows that this is the only reason for a failure.
* `C58_display_ids_refuted`: printed expressions only contain names, so different columns with the same name cannot be told apart.
* `C59_not_reduced`: converting an integer that is not smaller than the modulus panics for BabyBear, KoalaBear, Mersenne31 and Bn254, but
  reduces it for Goldilocks.  Generic code that is only tested with Goldilocks does not notice.  Range constraints never do it (`C59_built`).
* `C59_max_bit_panics`: the constraint to a highest bit panics if the bit is not a bit of the integer, although such a constraint is
  meaningful (it allows everything); with BabyBear this already happens for bit 32.
* `C60_text_refuted`: `filter_locations_in_text` is meant to remove the source locations that are not in a text section. It keeps those in
  loaded segments that are not executable, since the map has all loaded segments, and it keeps those after the last segment, since nothing
  is removed after the loop. `C60_data_location_panics`: a location in a data segment before an instruction then fails the assertion in
  `take_executable_statements`.
* `C60_nameless_refuted`: `full_name.last().is_some()` asks whether the stack has an element, not whether the variable has a name. So a
  variable without a name gets a note that ends with `?`, and its symbol, which should be the fallback, is not used.
* `C60_labels_refuted`: a symbol named like a made up label (`__.L00000008` at another address than 8) gives two addresses the same label;
  making names unique does not look at made up labels.
* `C61_substitute_refuted`: `substitute_subexpressions` rewrites in pre-order, so it also substitutes in the values that it has put in:
  replacing x by x + 1 recurses without end, and replacing x by y + y and y by 5 at the same time gives 5 + 5. The function is public
  but not called in the repository.
* `C61_derived_refuted`: the walks over a machine leave out its derived columns, so `globalize_references` moves the ids of the constraints
  and not those of the derived columns. Machines of instructions have no derived columns, so this is not reached today.
* `C62_no_path_refuted`: the documentation of `ExportOptions` says that nothing is exported unless a path is given. With `APC_EXPORT_LEVEL` 2 or 3
  and no `APC_EXPORT_PATH` the build panics at the first state of the optimizer instead (`path.unwrap()`).
* `C62_substitutions_refuted`: the assignments of the last rule based pass of `optimize` are dropped (`let (constraint_system, _)`), so the
  variables that it substitutes are missing in the file of substitutions. `C62_build_substitutions` says what is in it.
* `C62_infos_refuted`: two lists of pcs can have a file in common if the text behind the number starts with a digit; no call has such a text.
* `C63_names_refuted`: `air_metrics` finds precompiles by the prefix `PowdrAir` of a Rust type name. An original AIR with such a name would
  take the widths of the first precompile and the call would panic at the last one. No AIR of OpenVM has such a name today.
* `C63_profile_exists`: `execution_profile` panics (`min().unwrap()`) if the run has no step, and the count of a pc is a `u32`.
* `C63_saved`: `columns_saved` subtracts `usize` values and panics, or wraps around in release builds, if a precompile has more columns than its instructions.
* `C64_answers_refuted`: the names of files are computed from the arguments and the `VmExe`. The build also depends on the ELF file (jump
  destinations from its labels) and on powdr itself. After a change that only touches these, the cache returns the results of before.
* The cache also hides effects: on a hit, `--apc-candidates-dir` is not written. (Not a theorem: these files are outside the model.)
* `C65_line_refuted`: operands `f` and `g` are not printed for jumps, branches, multiplications and hints. Two jumps that differ in `f`
  (whether the register is written, in OpenVM) have the same line.
* `C65_branch_refuted`: immediates outside of the half range are printed with the other sign, the middle one among them, and the least
  `i32` makes `(-imm) as u32` overflow.
* `C66_range_checker_refuted`: the documentation says that the dummy chips share the range checker of the VM. They do not (and must not: the
  counts of the replay would be added to the real ones): the system of the dummy inventory adds its own before, and the shared one is only kept.
* `C67_mock_release_refuted`: `--mock` is documented as "constraint check only". In a release build it checks no constraint, logs a warning
  and succeeds.
* `C67_limits_refuted`: a `segment_height` replaces all segmentation limits of the program by the default ones, not only the height, and is cut
  to 32 bits (`as u32`), so 2^32 means 0. (This reads OpenVM's `with_max_trace_height` as an update of one field.)
* `C68_method_refuted`: the computation method of a requested variable is translated without looking at the requests. If it mentions another
  requested variable, it is read as a known one: the new variable is computed from itself. The rules do not request such variables today.
* `C68_deterministic_refuted`: the final identifiers are meant to be deterministic. If an expression has two requested variables, they are
  created in the order of the temporary identifiers, so the result depends on the order of the requests.
* `C69_start_refuted`: if no block begins in the segments that are processed first, the collection of empirical constraints panics
  (`max().unwrap()` in `take_complete_blocks`), although it works if more segments are kept in memory. Blocks of a program contain every
  instruction, so by `C69_program` this happens only if these segments have no rows of instruction chips.
* `C69_zero_panics`: the environment variable for the number of segments may be 0; then there is always a remainder by zero.
* `C69_ranges_refuted`: the ranges depend on the number of segments kept in memory (the code says that they are estimates).
* `C70_trap_refuted`: the code of a call does not look at whether the execution has ended after an original instruction. If an
  instruction in the middle of a block ends it (an error), the rest of the block is executed all the same, and the final state differs
  from that without precompiles. `C70_program` therefore assumes that allowed instructions that are not branching do not end the
  execution, and `C70_superblock` that no allowed instruction does (`never_ends`).
* `C71_pairs`: in 64-bit programs no jump through AUIPC and JALR is ever found (see `C54_wide_refuted`: the register compared is the
  source register of AUIPC, which does not exist). If one were, its target would be computed from the address of JALR, not of AUIPC,
  so four too high (`known_pair` in `WideSpec.v` states what the code does).
* `C74_message_refuted`: the panic about a number used for two types names the two types (one of them in the place of the number) and not
  the number, so conflicts about different numbers have the same message.
* `C75_version_refuted`: the numbers of files in source locations are right for DWARF up to version 4, which numbers the files of a unit
  from 1. In version 5, which numbers them from 0, every location names the file before its own (`C75_shifted`), possibly one of another unit.
* `C75_prologue_refuted`: rows marked as the end of a prologue are skipped as if they were the end of a sequence, so their addresses can
  have no source location.
* `C76_missing_refuted`: the sections are not filtered by their names, so that a program without debug information is not reported as
  such unless it has no named section at all (harmless: its symbols are then those of the symbol table).
* `C77_told_apart_refuted`: the forms `rl` and `rro` do not tell a target from a source, so the arguments of a jump and of a branch, and of a
  load and of a store, can be the same (harmless: the name of the operation tells them apart).
* `C78_overlap_refuted`: the last word of a section of data is filled up with zeros, so if another section starts within it, the initial
  memory has two words that overlap and disagree (linkers align sections, so this needs an unusual linker script).
* `C79_without_refuted`: the listing of a 64-bit program counts the jump destinations without symbols without the entry point, even if that has
  no symbol, so its rows without a symbol can be more than it says (`C79_without`: by one at most).
