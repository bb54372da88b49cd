{"id": "C01", "title": "Canonical expressions keep their value", "statement": "Building an expression from any list of terms (Expression::from_terms) yields a sorted expression with no two terms over the same variables, which evaluates under every assignment of variables to the same field element as the sum of the given terms; multiplying by a constant multiplies the value.", "quantifier": "every term list, every field, every assignment", "why_tests_cant": "term lists and assignments are unbounded; merging bugs only show for particular coincidences of variables and cancelling coefficients", "anchors": ["expander_compiler/src/circuit/ir/expr.rs: Expression::from_terms, compress_identical_terms, mul_constant, LinComb::eval, from_kx_plus_b"]}
{"id": "C02", "title": "Validated circuits never read an undefined variable", "statement": "If RootCircuit::validate accepts a circuit then evaluating it never reads a variable that is not yet defined, every sub-circuit call names an existing circuit with the right number of inputs and outputs, and evaluation terminates.", "quantifier": "every accepted root circuit of every IR, every input vector of the right length", "why_tests_cant": "the set of circuits is infinite; a missed check shows only on a crafted circuit", "anchors": ["expander_compiler/src/circuit/ir/common/mod.rs: validate, validate_variable_references, eval_unsafe_sub"]}
{"id": "C03", "title": "Acyclicity check is exact", "statement": "The sub-circuit call graph check accepts exactly the graphs without a cycle, and the topological order it is based on lists every circuit once and before everything it calls.", "quantifier": "every finite directed graph", "why_tests_cant": "graphs are unbounded", "anchors": ["expander_compiler/src/utils/misc.rs: topo_order, topo_order_and_is_dag"]}
{"id": "C04", "title": "Removing unreachable code preserves behaviour", "statement": "After remove_unreachable, for every full input vector, the optimised circuit on the mapped inputs produces the same outputs and the same satisfied/violated verdict as the original, and dropped root inputs cannot influence either.", "quantifier": "every valid circuit of every IR, every input vector, every choice of hint and random values", "why_tests_cant": "requires liveness through nested sub-circuits for all circuits", "anchors": ["expander_compiler/src/circuit/ir/common/opt.rs: remove_unreachable", "expander_compiler/src/circuit/input_mapping.rs"]}
{"id": "C05", "title": "Reassigning duplicate outputs preserves behaviour", "statement": "Rewriting sub-circuits so that no circuit returns the same variable twice (or returns an input) keeps outputs and verdict of the root circuit for every input.", "quantifier": "every valid circuit, every input vector", "why_tests_cant": "all circuits, all nesting depths", "anchors": ["expander_compiler/src/circuit/ir/common/opt.rs: reassign_duplicate_sub_circuit_outputs"]}
{"id": "C06", "title": "Chain detection preserves behaviour", "statement": "Merging chains of additions into one linear combination and chains of multiplications into one product (detect_chains) leaves the value of every observable (output, constraint, remaining used variable) unchanged.", "quantifier": "every source circuit, every input", "why_tests_cant": "reference counting mistakes only appear on particular sharing patterns", "anchors": ["expander_compiler/src/circuit/ir/source/chains.rs: detect_chains"]}
{"id": "C07", "title": "Hint normalisation is complete", "statement": "If a source circuit is satisfied on an input, then the hint-normalised circuit, run with the compiler's own built-in hints, is satisfied on the same input and has the same outputs.", "quantifier": "every valid source circuit, every satisfying input, every behaviour of user hints and random values", "why_tests_cant": "unbounded circuits and field elements; division by zero and corner values", "anchors": ["expander_compiler/src/builder/hint_normalize.rs: process, Builder", "expander_compiler/src/builder/basic.rs"]}
{"id": "C08", "title": "Hint normalisation is sound", "statement": "If the hint-normalised circuit is satisfied for some values of its hints, whatever an adversary chose, then the source circuit is satisfied on the same input with the same outputs, up to what the source itself leaves free (hints, unconstrained operations, selections, unchecked 0/0, over-wide bit decompositions). This holds for every program without and/or/xor and is_zero, and for every program in which no assertion is lost to a boolean mark (a decidable check on the compiler's final constraint table); without that proviso it is false (C09).", "quantifier": "every valid source circuit, every input, every adversarial choice of hint outputs", "why_tests_cant": "an adversarial prover ranges over all field elements; tests only run the honest hints", "anchors": ["expander_compiler/src/builder/hint_normalize.rs: add_hint, assert_*, mark_*, BoolBinOp, Div, IsZero, ToBinary"]}
{"id": "C09", "title": "Marking a value as boolean never drops a check", "statement": "A boolean assertion requested by the program (explicitly, or through an operand of and/or/xor) is enforced in the compiled circuit unless the same expression is also marked as the result of and/or/xor/is_zero without its own operands being enforced; in that case it can be lost: `assert x is a bit` together with `x and 1` compiles to a circuit satisfied by x = 2.", "quantifier": "every program order of assertions and boolean operations, every input", "why_tests_cant": "depends on the interleaving of operations on equal expressions", "anchors": ["expander_compiler/src/builder/basic.rs: ConstraintStatus, assert/mark", "expander_compiler/src/builder/hint_normalize.rs: BoolBinOp"]}
{"id": "C10", "title": "to_binary is exact on honest runs", "statement": "The to_binary hint returns the n low bits, least significant first, and succeeds exactly when the value fits in n bits; recombining gives the value back; in-circuit decomposition is unique when 2^n does not exceed the field size.", "quantifier": "every field element, every n", "why_tests_cant": "field too large to enumerate", "anchors": ["expander_compiler/src/hints/builtin.rs: to_binary", "expander_compiler/src/builder/hint_normalize.rs: ToBinary"]}
{"id": "C11", "title": "Built-in hints compute the documented function", "statement": "Each built-in hint (div, eq, neq, bool/bit and/or/xor, select, pow, int div, mod, shifts, comparisons) computes the documented integer or field function for every operand, including zero divisors.", "quantifier": "all operands of all built-in hints", "why_tests_cant": "field too large to enumerate", "anchors": ["expander_compiler/src/hints/builtin.rs: impl_builtin_hint, binop, circom_shift_l_impl, circom_shift_r_impl, circom_pow"]}
{"id": "C12", "title": "Hint removal and hint export agree", "statement": "For every root circuit with hints: running the hint-exporting solver circuit on the user inputs yields exactly the extended input vector on which the hint-free circuit produces the same outputs and verdict as the original; conversely every satisfying extended input of the hint-free circuit corresponds to a choice of hints satisfying the original.", "quantifier": "every valid hint-normalised circuit, every nesting of sub-circuits, every input", "why_tests_cant": "hint slots of nested calls must line up for every nesting depth", "anchors": ["expander_compiler/src/circuit/ir/hint_normalized/mod.rs: remove_hints, export_hints, compute_hint_sizes, remove_and_export_hints"]}
{"id": "C13", "title": "Witness solver restores removed inputs", "statement": "add_back_removed_inputs lets the caller pass the full original input vector; the solved witness equals that of the reduced circuit on the kept inputs.", "quantifier": "every input mapping, every input vector", "why_tests_cant": "all mappings", "anchors": ["expander_compiler/src/circuit/ir/hint_normalized/mod.rs: add_back_removed_inputs", "expander_compiler/src/circuit/input_mapping.rs"]}
{"id": "C14", "title": "Final build preserves behaviour", "statement": "Turning a hint-free circuit into single-layer expressions (build to dest IR) preserves outputs and the verdict for every input, whatever cost model decisions are taken.", "quantifier": "every hint-free circuit, every input, every random value", "why_tests_cant": "the heuristics branch on costs and sizes; unbounded expressions", "anchors": ["expander_compiler/src/builder/final_build_opt.rs: Builder, process, make_single, mul_vec, lin_comb", "expander_compiler/src/circuit/costs.rs"]}
{"id": "C15", "title": "Fan-out limiting preserves behaviour and meets the limit", "statement": "solve_mul_fanout_limit keeps outputs and verdict, and afterwards no variable of any circuit occurs in more than limit multiplication operands.", "quantifier": "every circuit, every limit greater than one, every input", "why_tests_cant": "counts interact through copies and relays in unbounded circuits", "anchors": ["expander_compiler/src/circuit/ir/dest/mul_fanout_limit.rs: solve_mul_fanout_limit, NewIdQueue"]}
{"id": "C16", "title": "Exported constraints are the leading zero outputs", "statement": "Where random combination is disabled, export_constraints turns the verdict into leading outputs which are all zero exactly when the original verdict is satisfied; other outputs are unchanged.", "quantifier": "every dest circuit, every nesting, every input", "why_tests_cant": "all nestings", "anchors": ["expander_compiler/src/circuit/ir/dest/mod.rs: export_constraints"]}
{"id": "C17", "title": "Solving duplicates preserves behaviour", "statement": "solve_duplicates makes sub-circuit call arguments and outputs pairwise distinct while keeping outputs and verdict.", "quantifier": "every relaxed dest circuit, every input", "why_tests_cant": "all circuits", "anchors": ["expander_compiler/src/circuit/ir/dest/mod.rs: solve_duplicates"]}
{"id": "C18", "title": "Layer splitting preserves behaviour", "statement": "Splitting a circuit into segments of one layer keeps its outputs on every input. With random combination, if all constraints hold the split circuit is accepted whatever is drawn, and if one is violated it is rejected for some draws; without it (constraints already made outputs) the verdict is the same. This needs at least one reachable constraint when random combination is on (otherwise a real output is lost) and fewer constraints per circuit than the field's characteristic.", "quantifier": "every relaxed dest circuit, every input", "why_tests_cant": "all circuits", "anchors": ["expander_compiler/src/layering/ir_split.rs: split_to_single_layer"]}
{"id": "C19", "title": "Layering preserves behaviour", "statement": "The layered circuit produced from a dest circuit computes, on mapped inputs, the same outputs, and accepts exactly when all constraints hold (for every value of the random coefficients in the accepting direction).", "quantifier": "every dest circuit, every input, both layered formats", "why_tests_cant": "layout is heuristic and depends on every variable lifetime", "anchors": ["expander_compiler/src/layering/compile.rs", "expander_compiler/src/layering/layer_layout.rs", "expander_compiler/src/layering/wire.rs"]}
{"id": "C20", "title": "Validated layered circuits evaluate in bounds", "statement": "If the layered circuit's validate accepts, evaluation on an input of the declared size never indexes out of bounds, every layer has a power-of-two size and the outputs are exactly the declared ones, provided the declared output counts fit the last layer and every public input used is supplied (validate does not look at these); every wire a gate reads is a circuit input or is written by some gate of the layer it comes from.", "quantifier": "every accepted layered circuit, every input", "why_tests_cant": "all circuits", "anchors": ["expander_compiler/src/circuit/layered/mod.rs: validate, eval_unsafe, apply_segment"]}
{"id": "C21", "title": "Layered optimisations preserve behaviour", "statement": "Deduplicating gates, expanding small segments and extracting common parts keep the value of every output wire for every input.", "quantifier": "every layered circuit, every input", "why_tests_cant": "all circuits; sampling-based extraction is randomised", "anchors": ["expander_compiler/src/circuit/layered/opt.rs: dedup_gates, expand_small_segments, find_common_parts"]}
{"id": "C22", "title": "Layered circuit serialisation round-trips", "statement": "Deserialising the serialised layered circuit gives the circuit back and consumes exactly its bytes; a file with another magic number or field modulus is rejected.", "quantifier": "every layered circuit, every byte suffix", "why_tests_cant": "all circuits", "anchors": ["expander_compiler/src/circuit/layered/serde.rs"]}
{"id": "C23", "title": "IR serialisation round-trips", "statement": "Deserialising a serialised source or hint-normalised circuit gives it back, consuming exactly its bytes; a file for another configuration is rejected.", "quantifier": "every circuit, every byte suffix", "why_tests_cant": "all circuits", "anchors": ["expander_compiler/src/circuit/ir/common/serde.rs", "expander_compiler/src/circuit/ir/source/serde.rs", "expander_compiler/src/circuit/ir/hint_normalized/serde.rs"]}
{"id": "C24", "title": "Witness serialisation round-trips", "statement": "A serialised witness deserialises to itself; another field's witness is rejected.", "quantifier": "every witness", "why_tests_cant": "all witnesses", "anchors": ["expander_compiler/src/circuit/layered/witness.rs: ExpSerde for Witness"]}
{"id": "C25", "title": "SIMD packing is lossless", "statement": "Packing scalar witnesses into SIMD blocks and unpacking gives every witness back in order, for any number of witnesses, padding by repeating the last one; converting a scalar witness to SIMD form keeps all values.", "quantifier": "every witness count, pack size, input count", "why_tests_cant": "all sizes including non-multiples", "anchors": ["expander_compiler/src/circuit/layered/witness.rs: pack_block, unpack_block, convert_to_simd, iter_scalar, iter_simd", "expander_compiler/src/circuit/ir/hint_normalized/witness_solver.rs"]}
{"id": "C26", "title": "SIMD evaluation is lane-wise", "statement": "Running a circuit on SIMD values gives in each lane exactly what the scalar evaluation gives on that lane.", "quantifier": "every circuit, every pack size, every lane", "why_tests_cant": "all circuits and lane values", "anchors": ["expander_compiler/src/circuit/ir/hint_normalized/mod.rs: eval_safe_simd, eval_sub_safe", "expander_compiler/src/circuit/layered/mod.rs: eval_unsafe"]}
{"id": "C27", "title": "Input mapping composition", "statement": "Applying two input mappings one after the other equals applying their composition; the identity mapping changes nothing; unmapped inputs never reach the circuit.", "quantifier": "every pair of composable mappings, every input vector", "why_tests_cant": "all mappings", "anchors": ["expander_compiler/src/circuit/input_mapping.rs: map_inputs, compose, compose_in_place, new_identity"]}
{"id": "C28", "title": "Heap always pops a minimum", "statement": "The binary heap used by the expression merger returns elements in non-decreasing order and loses none.", "quantifier": "every sequence of pushes and pops", "why_tests_cant": "all histories", "anchors": ["expander_compiler/src/utils/heap.rs: push, pop"]}
{"id": "C29", "title": "Bucket sort is a stable sort", "statement": "bucket_sort returns a permutation ordered by key with equal keys in original order, and the returned start positions delimit each key.", "quantifier": "every array and key function within range", "why_tests_cant": "all arrays", "anchors": ["expander_compiler/src/utils/bucket_sort.rs"]}
{"id": "C30", "title": "Union-find maintains exactly the merged partition", "statement": "After any sequence of unions, two elements have the same root exactly when they are connected by the requested unions; queries change nothing observable.", "quantifier": "every operation sequence", "why_tests_cant": "all histories, path compression", "anchors": ["expander_compiler/src/utils/union_find.rs"]}
{"id": "C31", "title": "Interning pool is a bijection", "statement": "Pool::add returns the same index exactly for equal values; get returns the value; indices are dense and never change.", "quantifier": "every history of insertions", "why_tests_cant": "all histories", "anchors": ["expander_compiler/src/utils/pool.rs"]}
{"id": "C32", "title": "Static hash map finds exactly its keys", "statement": "After construction from distinct keys, get returns for each key its position and no false position for a stored key.", "quantifier": "every key set for which construction succeeds", "why_tests_cant": "all key sets", "anchors": ["expander_compiler/src/utils/static_hash_map.rs"]}
{"id": "C33", "title": "Circuit builder records what the API promises", "statement": "Each frontend API call appends instructions such that evaluating the recorded circuit gives the API's documented result, with constant folding never changing the meaning.", "quantifier": "every sequence of API calls, every input", "why_tests_cant": "all programs", "anchors": ["expander_compiler/src/frontend/builder.rs: Builder, RootBuilder", "expander_compiler/src/frontend/api.rs"]}
{"id": "C34", "title": "Debug evaluator agrees with the recorded circuit", "statement": "Running a program under DebugBuilder gives the values that evaluation of the recorded circuit gives, and panics exactly when a constraint fails.", "quantifier": "every program, every input", "why_tests_cant": "all programs", "anchors": ["expander_compiler/src/frontend/debug.rs", "expander_compiler/src/frontend/builder.rs"]}
{"id": "C35", "title": "Export to the prover format preserves behaviour", "statement": "Exporting a layered circuit to the expander circuit keeps every layer's computed values.", "quantifier": "every layered circuit, every input", "why_tests_cant": "all circuits", "anchors": ["expander_compiler/src/circuit/layered/export.rs"]}
{"id": "C36", "title": "End-to-end completeness", "statement": "If an input satisfies the source circuit, the witness produced by the compiled solver is accepted by the compiled layered circuit with the same outputs, for every value of the random coefficients.", "quantifier": "every valid source circuit, every satisfying input", "why_tests_cant": "whole pipeline, all circuits", "anchors": ["expander_compiler/src/compile/mod.rs: compile_with_options"]}
{"id": "C37", "title": "End-to-end soundness", "statement": "If for an extended input the layered circuit accepts for all values of the random coefficients, then the corresponding source input satisfies the source circuit for some hint values.", "quantifier": "every valid source circuit, every layered input vector", "why_tests_cant": "adversarial provers range over all inputs", "anchors": ["expander_compiler/src/compile/mod.rs: compile_with_options"]}
{"id": "C38", "title": "Tensor padding, reshape and transpose", "statement": "Shape-history permutation implements exactly the index permutation of the reshapes and transposes performed; padding places every element at the mapped position and fills by repetition.", "quantifier": "every shape, every axes permutation, every history", "why_tests_cant": "all shapes and histories", "anchors": ["expander_compiler/src/zkcuda/shape.rs: ShapeHistory, multi_dimension_data_padding, shape_padded_mapping"]}
{"id": "C39", "title": "Constraint propagation through sub-circuits", "statement": "The verdict of the root is the conjunction of the constraints of every (transitively) executed circuit instance.", "quantifier": "every circuit, every nesting", "why_tests_cant": "all nestings", "anchors": ["expander_compiler/src/circuit/ir/common/mod.rs: eval_unsafe_sub"]}
{"id": "C40", "title": "Optimisation loop terminates at a fixed point", "statement": "optimize_until_fixed_point ends for every valid circuit, and returns a circuit that none of the passes of the loop changes any more, with a valid input mapping; every run of the given circuit is a run of the result on the mapped inputs, and conversely for circuits whose instructions always have results (all circuits after the source IR).", "quantifier": "every circuit", "why_tests_cant": "all circuits", "anchors": ["expander_compiler/src/compile/mod.rs: optimize_until_fixed_point"]}
{"id": "C41", "title": "Bit order of a shape history", "statement": "For every shape history and every legal split of the initial shape, padding the permuted vector to powers of two in the transposed shape gives exactly the initial padded vector read through the returned permutation of address bits.", "quantifier": "every initial shape, every legal list of reshapes and transposes, every split shape for which the function returns, every vector", "why_tests_cant": "ranges over all shapes, histories and splits", "anchors": ["expander_compiler/src/zkcuda/shape.rs: ShapeHistory::get_transposed_shape_and_bit_order, multi_dimension_data_padding"]}
{"id": "C42", "title": "Layering never panics", "statement": "Layering succeeds for every dest circuit that passes the checks made before it: it validates (with distinct call arguments and outputs) and each of its circuits has an input. No assertion, index or unwrap of the scheduler, the layout solver or the wire generator fails, for single-layer and cross-layer relays and with or without input reordering.", "quantifier": "every valid dest circuit, every nesting of sub-circuits, both relay modes, both reorder settings", "why_tests_cant": "ranges over all circuits; the assertions guard invariants between schedules, layouts and wires", "anchors": ["expander_compiler/src/layering/compile.rs: compile, compute_min_max_layers", "expander_compiler/src/layering/layer_layout.rs: solve_layer_layout, merge_layouts", "expander_compiler/src/layering/wire.rs: connect_wires, LayoutQuery::query"]}
{"id": "C43", "title": "Splitting into layers never panics", "statement": "Cutting a valid dest circuit at layer boundaries succeeds whenever no circuit calls the root and, where random combination is off, the constraints have been made outputs before: no assertion, index or unwrap of the layer computation, the segmentation or the reassembly fails.", "quantifier": "every valid dest circuit whose root is not called, with and without random combination, every nesting of sub-circuits", "why_tests_cant": "ranges over all circuits and all ways sub-circuits are called at different layers; the assertions guard invariants between layer computation and cutting", "anchors": ["expander_compiler/src/layering/ir_split.rs: split_to_single_layer, compute_layers, split_circuit"]}
{"id": "C44", "title": "The compiler never panics and always ends", "statement": "On every circuit of the builder and every compile options, compiling returns either an error or a compiled circuit: none of the assertions, indexings, unwraps and expects of the passes fails, and all optimisation loops of the circuit passes end. The only exception is an intermediate circuit with more inputs than a usize can count. Step 3's rounds never fail either, whatever pairs of segments they compare.", "quantifier": "every source circuit (valid or not), every option record (valid or not), every configuration of field, random combination and cross-layer relays, every number of rounds of the loops", "why_tests_cant": "a panic needs only one unusual circuit in one of some twenty passes, each relying on what the passes before it leave behind", "anchors": ["expander_compiler/src/compile/mod.rs: compile_with_options, compile_step_1, compile_step_2, compile_step_3, compile_step_4, optimize_until_fixed_point"]}
{"id": "C45", "title": "The SHA-256 circuit over GF(2) computes SHA-256", "statement": "Hashing with SHA256GF2 (any number of update calls, then finalize) returns the FIPS 180-4 digest of the concatenated bits, makes no failing assertion and is the only possible run; a circuit asserting a digest accepts exactly the digest. The exception is a message whose length is 448 to 510 modulo 512 bits: finalize underflows and panics. The adders and sum_all are addition modulo 2^32.", "quantifier": "every message of bits of every length outside the stated gap, every way of cutting it into updates, every field of two elements, every surrounding program", "why_tests_cant": "message and length are unbounded; tests hash a few random messages of one length, and no test hits the lengths that panic", "anchors": ["circuit-std-rs/src/sha256/gf2.rs: SHA256GF2::update, finalize, sha256_compress", "circuit-std-rs/src/sha256/gf2_utils.rs: add_brentkung, add_vanilla, add_const, sum_all, ch, maj, lower_case_sigma0, capital_sigma0, rotate_right, shift_right"]}
{"id": "C46", "title": "The SHA-256 circuits over a prime field compute SHA-256", "statement": "sha256_var_bytes (any number of bytes), sha256_37bytes and sha256_37bytes_compress (bits) return the 32 bytes of the FIPS 180-4 digest of their input, make no failing assertion and have no other run; the check_ variants accept exactly the digest; a value that is not a byte leaves no run. sha256_37bytes_256batch_compress returns the digests when all inputs share their first 32 bytes; otherwise its later outputs start from the first input's state and are wrong.", "quantifier": "every number of input bytes, every byte values, every field with more than 2^30 elements (M31), every number of batch inputs, every surrounding program", "why_tests_cant": "length and contents are unbounded; tests hash random inputs of fixed lengths, and carries at the word limits are rare", "anchors": ["circuit-std-rs/src/sha256/m31.rs: MyDigest, sha256_37bytes, sha256_37bytes_compress, sha256_37bytes_256batch_compress, sha256_var_bytes, check_sha256_37bytes", "circuit-std-rs/src/sha256/m31_utils.rs: bytes_to_bits, sigma0, cap_sigma0, ch, maj, sha_m31_26_add, bit_array_to_m31_26, m31_26_to_bit_array_seperate, idiv_mod_bit"]}
{"id": "C47", "title": "Lookup arguments accept exactly the queries that are rows of the table, range proofs exactly the values in range", "statement": "LogUpCircuit::define and LogUpSingleKeyTable (final_check, final_check_with_query_count) do not panic on tables of equal row lengths; their runs are accepted iff the sum of count/(alpha - row) over the table equals the sum of 1/(alpha - query), with denominators cleared, where rows and queries are combined with the same fresh random coefficients. Queries that are all rows, with the true counts, are accepted whatever the randomness; a circuit accepted with every randomness has only queries that are rows (key and value together), whatever the counts or the hint's answers; at most rows + queries many values of alpha accept a query whose combination is not one of the table's. The single hint of final_check is asked for exactly the row count, the table's keys and the queries' keys. LogUpRangeProofTable (initial, rangeproof, final_check) with tables of b bits: accepted with every randomness, whatever the hints answer, shows v + 2^m - 2^n < 2^m for every value v proved to have n > 0 bits, with m the multiple of b following n; with the registered hints these values are accepted. This is v < 2^n when b divides n; otherwise the values from -(2^m - 2^n) to -1 are accepted as well. final_check with its registered hint accepts every honest query when the table's keys are distinct in 32 bits.", "quantifier": "every table, every number and length of rows and queries, every field with more elements than rows and queries together, every value of the random elements, every answer of hints, every surrounding program", "why_tests_cant": "tests run one random table of honest queries; soundness speaks about every wrong table, every count vector and all random choices", "anchors": ["circuit-std-rs/src/logup.rs: LogUpCircuit, LogUpSingleKeyTable, LogUpRangeProofTable, rangeproof_hint, query_count_hint, add_rational, assert_eq_rational, sum_rational_vec, combine_columns, logup_poly_val"]}
