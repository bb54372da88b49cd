{
 "claims": [
  {
   "property": "C01",
   "status": "proved",
   "theorems": [
    "C01_from_terms",
    "C01_mul_constant"
   ],
   "note": ""
  },
  {
   "property": "C02",
   "status": "proved",
   "theorems": [
    "C02_evaluation_is_safe",
    "C02_calls_fit",
    "C02_reads_are_defined"
   ],
   "note": ""
  },
  {
   "property": "C03",
   "status": "proved",
   "theorems": [
    "C03_topo_dag",
    "C03_call_graph",
    "C03_power_of_two"
   ],
   "note": ""
  },
  {
   "property": "C04",
   "status": "proved",
   "theorems": [
    "C04_completeness",
    "C04_soundness",
    "C04_dropped_inputs_do_not_matter",
    "C04_source_soundness_refuted"
   ],
   "note": "Runs as a relation over all hint answers, random draws, custom gates. Soundness direction holds after the source stage; refuted for the source stage (unused instructions with implicit checks are dropped)."
  },
  {
   "property": "C05",
   "status": "proved",
   "theorems": [
    "C05_reassign_duplicates"
   ],
   "note": "All stages, both values of force."
  },
  {
   "property": "C06",
   "status": "proved",
   "theorems": [
    "C06_detect_chains",
    "C06_used_variables",
    "C06_leftovers_unread"
   ],
   "note": "Every run of the result is a run of the original and conversely; values of all variables still read are unchanged; the emptied instructions are unread."
  },
  {
   "property": "C07",
   "status": "proved",
   "theorems": [
    "C07_complete"
   ],
   "note": "Both halves: no panic, rejection only with a division or unconstrained operation, interface kept, every run kept. That the result passes validate again is not claimed: a root without outputs may lose its only constraint."
  },
  {
   "property": "C08",
   "status": "proved",
   "theorems": [
    "C08_sound_without_marks",
    "C08_sound",
    "C08_sound_pinned"
   ],
   "note": "Sound against arbitrary hint values for every circuit without markers, and for every circuit the decidable check root_keptb accepts; C08_sound_pinned concludes with the source semantics itself. The unrestricted claim is false: C09_refuted."
  },
  {
   "property": "C09",
   "status": "proved",
   "theorems": [
    "C09_enforced",
    "C09_refuted"
   ],
   "note": "The unrestricted property is false of the code; C09_refuted exhibits the program, C09_enforced proves the restated property."
  },
  {
   "property": "C10",
   "status": "proved",
   "theorems": [
    "C10_succeeds_iff_fits",
    "C10_low_bits_first",
    "C10_unique",
    "C10_unique_refuted"
   ],
   "note": ""
  },
  {
   "property": "C11",
   "status": "proved",
   "theorems": [
    "C11_builtin_hints",
    "C11_unconstrained_ops"
   ],
   "note": ""
  },
  {
   "property": "C12",
   "status": "proved",
   "theorems": [
    "C12_hint_free_circuit_means_any_hints",
    "C12_solver_computes_the_extended_input",
    "C12_export_validity_needs_uncalled_root_refuted"
   ],
   "note": "Hypotheses: circuit 0 has at least one variable and is not called by another circuit (true for every output of remove_unreachable, see remove_unreachable_spec; the refuted theorem shows the second one is needed)."
  },
  {
   "property": "C13",
   "status": "proved",
   "theorems": [
    "C13_added_inputs_are_ignored",
    "C13_remove_then_add_back"
   ],
   "note": ""
  },
  {
   "property": "C14",
   "status": "proved",
   "theorems": [
    "C14_final_build",
    "C14_error_only_if_unsatisfiable"
   ],
   "note": "model FinalBuild.v, proofs FbFacts.v/FbSim.v; for every cost model with ADD=CONST<=MUL and VARIABLE>=1 (the compiler's two meet this: real_costs_ok); Err only for a circuit no input can satisfy"
  },
  {
   "property": "C15",
   "status": "proved",
   "theorems": [
    "C15_mul_fanout_limit",
    "C15_random_constant_refuted"
   ],
   "note": "runs kept always; no run added unless a random constant is copied (refuted theorem shows that case)"
  },
  {
   "property": "C16",
   "status": "proved",
   "theorems": [
    "C16_export_constraints"
   ],
   "note": "Hypothesis root_not_called: nobody calls circuit 0, which holds after remove_unreachable (the preceding pass)."
  },
  {
   "property": "C17",
   "status": "proved",
   "theorems": [
    "C17_solve_duplicates",
    "C17_random_arguments_refuted"
   ],
   "note": "Outputs distinctness is inherited from reassign_duplicates(true). Backward direction: all draws equal, or no circuit calls anything after its first draw (true of what the compiler passes it, Settled.v); C17_random_arguments_refuted proves the proviso is needed (a duplicated random argument becomes two independent ones)."
  },
  {
   "property": "C18",
   "status": "proved",
   "theorems": [
    "C18_split_to_single_layer",
    "C18_without_constraints_refuted",
    "C18_too_many_constraints_refuted"
   ],
   "note": "Both directions for every circuit, input and environment. Hypotheses (a reachable constraint with random combination; fewer constraints than the characteristic) are shown necessary by the _refuted theorems: finding 19 (NormalInputType with random combination and no constraints: one real output is taken for a check) and finding 20."
  },
  {
   "property": "C19",
   "status": "proved",
   "theorems": [
    "C19_layering"
   ],
   "note": "both layered formats (cross), any dest circuit accepted by validate for which the compiler returns a circuit (None = panic); randomness is a set of allowed values"
  },
  {
   "property": "C20",
   "status": "proved",
   "theorems": [
    "C20_validated_layered_in_bounds",
    "C20_reads_are_written",
    "C20_output_counts_unchecked_refuted"
   ],
   "note": "validate does not check the declared output counts or the public input ids: the refuted theorem exhibits an accepted circuit on which every evaluation panics"
  },
  {
   "property": "C21",
   "status": "proved",
   "theorems": [
    "C21_dedup_gates_preserves",
    "C21_expand_small_segments_preserves",
    "C21_find_common_parts_preserves",
    "C21_all_layered_optimisations_preserve",
    "C21_all_layered_optimisations_preserve_drawn",
    "C21_layered_circuits_qualify",
    "C21_loop_never_fails",
    "C21_same_evaluation",
    "C21_find_common_parts_repeated_gate_refuted",
    "C21_expand_unplaced_child_refuted"
   ],
   "note": "each pass keeps every possible result for every input, random value, public input and custom gate, and validity; expand/find_common assume children are placed at least once and no identical varying-coefficient gate twice (both refuted theorems show why). The layering pass only builds circuits whose children are placed and whose gates with public coefficients are distinct (C21_layered_circuits_qualify); identical gates with random coefficients can occur there, and merging them changes nothing when every coin is possible (..._drawn)."
  },
  {
   "property": "C22",
   "status": "proved",
   "theorems": [
    "C22_layered_round_trip",
    "C22_wrong_header_rejected",
    "C22_other_field_rejected"
   ],
   "note": "byte layout of the primitives (usize, U256, field element, Vec, HashMap, derive) is that of the external serdes/arith crates and assumed"
  },
  {
   "property": "C23",
   "status": "proved",
   "theorems": [
    "C23_source_round_trip",
    "C23_hint_normalized_round_trip",
    "C23_input_mapping_round_trip"
   ],
   "note": "for every iteration order of the circuits map; primitive layouts assumed as in C22"
  },
  {
   "property": "C24",
   "status": "proved",
   "theorems": [
    "C24_witness_round_trip",
    "C24_packed_witness_exact",
    "C24_other_field_rejected",
    "C24_header"
   ],
   "note": "two or more witnesses with no value at all make the packing divide by zero, hence the hypothesis; primitive layouts assumed as in C22"
  },
  {
   "property": "C25",
   "status": "proved",
   "theorems": [
    "C25_scalar_iterator",
    "C25_simd_iterator",
    "C25_convert_to_simd_keeps_everything",
    "C25_batch_solver"
   ],
   "note": "A SIMD value is the list of its lanes; pack/unpack of the arith crate are the identity."
  },
  {
   "property": "C26",
   "status": "proved",
   "theorems": [
    "C26_solver_is_lanewise",
    "C26_layered_is_lanewise"
   ],
   "note": "solver and layered evaluator; SIMD arithmetic is modelled lane-wise"
  },
  {
   "property": "C27",
   "status": "proved",
   "theorems": [
    "C27_compose",
    "C27_identity",
    "C27_delivers",
    "C27_unmapped_irrelevant",
    "C27_validate"
   ],
   "note": "the sentinel usize::MAX>>9 is a parameter above all sizes"
  },
  {
   "property": "C28",
   "status": "proved",
   "theorems": [
    "C28_heap"
   ],
   "note": "all histories; comparator any total preorder"
  },
  {
   "property": "C29",
   "status": "proved",
   "theorems": [
    "C29_bucket_sort"
   ],
   "note": ""
  },
  {
   "property": "C30",
   "status": "proved",
   "theorems": [
    "C30_union_find"
   ],
   "note": "all histories"
  },
  {
   "property": "C31",
   "status": "proved",
   "theorems": [
    "C31_pool"
   ],
   "note": ""
  },
  {
   "property": "C32",
   "status": "proved",
   "theorems": [
    "C32_get",
    "C32_never_returns_refuted"
   ],
   "note": "positive property proved; C32_never_returns_refuted shows the constructor never returns on distinct keys equal modulo 1e9+7"
  },
  {
   "property": "C33",
   "status": "proved",
   "theorems": [
    "C33_recorded_circuit",
    "C33_recording_succeeds",
    "C33_captures_refuted",
    "C33_field_size_refuted"
   ],
   "note": "Any program (sequence of API calls and function calls, spec in ApiSpec.v); the recorded circuit is well formed and its runs are exactly the program's runs, and recording panics only on programs without a satisfying run. Hypotheses: no hash collision, functions capture nothing (refuted otherwise), gt/geq only with a supported FIELD_SIZE (refuted otherwise)."
  },
  {
   "property": "C34",
   "status": "proved",
   "theorems": [
    "C34_debug_agrees",
    "C34_panics_exactly",
    "C34_debug_run_is_a_run"
   ],
   "note": "Exact agreement when the random values of both runs are the same constant; for varying randomness a non-panicking debug run is a run of the recorded circuit."
  },
  {
   "property": "C35",
   "status": "proved",
   "theorems": [
    "C35_export_normal",
    "C35_export_cross",
    "C35_custom_gate_inputs_dropped_refuted"
   ],
   "note": "meaning of the external prover formats is a written specification (Export.v); custom gates with several inputs are exported with the first only, refuted separately; flatten/pre_process_gkr are external"
  },
  {
   "property": "C36",
   "status": "proved",
   "theorems": [
    "C36_completeness",
    "C36_with_coins"
   ],
   "note": "Whole pipeline composed, at all optimisation levels; acceptance by every run for every set of coins. Hypotheses beyond compiling: sizes fit usize, and where constraints are combined before layering (C18) fewer constraints per circuit than the characteristic and at least one constraint."
  },
  {
   "property": "C37",
   "status": "partial",
   "theorems": [
    "C37_soundness",
    "C37_extraction",
    "C37_soundness_optimised"
   ],
   "note": "For circuits whose instructions always have results (linear, product, is_zero, hint, constant, call, custom gate) the source circuit itself; for all circuits the optimised source circuit against an adversary. The claim is false in general: C04/C09 findings."
  },
  {
   "property": "C38",
   "status": "proved",
   "theorems": [
    "C38_history_permutation",
    "C38_operations_well_defined",
    "C38_illegal_operations_rejected",
    "C38_illegal_axes_rejected",
    "C38_padding",
    "C38_padding_single_valued",
    "C38_padded_mapping",
    "C38_mapping_agrees_with_padding",
    "C38_empty_refuted"
   ],
   "note": "Shapes with positive dimensions; on an empty tensor transposing panics (C38_empty_refuted)."
  },
  {
   "property": "C39",
   "status": "proved",
   "theorems": [
    "C39_verdict",
    "C39_evaluator"
   ],
   "note": ""
  },
  {
   "property": "C40",
   "status": "proved",
   "theorems": [
    "C40_loop_terminates",
    "C40_remove_unreachable_loop_terminates",
    "C40_source_loop_terminates",
    "C40_more_rounds_change_nothing",
    "C40_result_is_a_fixed_point"
   ],
   "note": "for every validated circuit (table keys distinct, root inputs at most usize::MAX) each of the three loops of the compiler ends (for every fuel from some number on the result is the same), at a circuit that each of its passes returns unchanged (up to the order of the table), with a valid composed input mapping; every run is kept, and conversely for the circuits after source (all hints answered) and for source circuits whose instructions always have results (C04 refutes the converse for the others)"
  },
  {
   "property": "C41",
   "status": "proved",
   "theorems": [
    "C41_bit_order"
   ],
   "note": "Partial correctness: whenever the function returns."
  },
  {
   "property": "C42",
   "status": "proved",
   "theorems": [
    "C42_layering_total"
   ],
   "note": "layer_compile always returns a circuit: schedule, layout contexts, layouts, connection of wires, input order. C42_no_inputs: the code's check that every circuit has an input is needed. Machine integers are unbounded (smear64_smear: the shifts agree below 2^64)."
  },
  {
   "property": "C43",
   "status": "proved",
   "theorems": [
    "C43_split_total"
   ],
   "note": "No panic of the model of ir_split.rs; C43_constrained shows the constraint condition is needed."
  },
  {
   "property": "C44",
   "status": "proved",
   "theorems": [
    "C44_compile_never_panics",
    "C44_same_compiler"
   ],
   "note": "Every pass and every loop of the circuit passes; step 3's loop is shown never to fail in any round, but not to end."
  },
  {
   "property": "C45",
   "status": "proved",
   "theorems": [
    "C45_hash",
    "C45_all_inputs",
    "C45_check",
    "C45_recorded",
    "C45_object_after",
    "C45_adders",
    "C45_sum_all",
    "C45_lengths_refuted"
   ],
   "note": "SHA256GF2 computes FIPS 180-4 SHA-256 for every message whose length leaves room for the padding as the code computes it; finalize panics for lengths 448..510 mod 512 (C45_lengths_refuted)"
  },
  {
   "property": "C46",
   "status": "proved",
   "theorems": [
    "C46_bytes",
    "C46_hash",
    "C46_37",
    "C46_only_bytes",
    "C46_check",
    "C46_compress",
    "C46_check_compress",
    "C46_batch",
    "C46_batch_outputs",
    "C46_batch_refuted",
    "C46_check_batch",
    "C46_recorded"
   ],
   "note": "all lengths and byte values, any field above 2^30; batch only for a shared prefix of 32 bytes (refuted otherwise)"
  },
  {
   "property": "C47",
   "status": "proved",
   "theorems": [
    "C47_runs",
    "C47_fractions",
    "C47_no_panic",
    "C47_complete",
    "C47_sound",
    "C47_few",
    "C47_recorded",
    "C47_single_runs",
    "C47_single_sound",
    "C47_single_no_panic",
    "C47_single_hint_runs",
    "C47_single_hint_sound",
    "C47_single_hint_complete",
    "C47_range_runs",
    "C47_range_sound",
    "C47_range_multiple",
    "C47_range_meaning",
    "C47_range_no_panic",
    "C47_range_complete",
    "C47_range_refuted"
   ],
   "note": "Soundness is for a circuit accepted with every randomness; C47_few bounds the accepting points for one choice of coefficients. Counts and hint answers do not depend on the randomness. Finding (C47_range_refuted): a range proof for a number of bits that is no multiple of the table's bits accepts values just below 0, e.g. -1."
  }
 ]
}