{
 "claims": [
  {
   "property": "C01",
   "status": "proved",
   "theorems": [
    "C01_execution_satisfies"
   ],
   "note": ""
  },
  {
   "property": "C02",
   "status": "proved",
   "theorems": [
    "C02_wrong_input_count",
    "C02_unsatisfied_only_if_violated",
    "C02_execution_complete",
    "C02_no_panic"
   ],
   "note": ""
  },
  {
   "property": "C03",
   "status": "proved",
   "theorems": [
    "C03_canonical_form",
    "C03_canonical_unique"
   ],
   "note": ""
  },
  {
   "property": "C04",
   "status": "proved",
   "theorems": [
    "C04_linearity_exact",
    "C04_linearity_complete"
   ],
   "note": ""
  },
  {
   "property": "C05",
   "status": "proved",
   "theorems": [
    "C05_lowering_same_assignments",
    "C05_lowering_accepts_rank_one",
    "C05_lowering_keeps_execution"
   ],
   "note": ""
  },
  {
   "property": "C06",
   "status": "proved",
   "theorems": [
    "C06_tautology_preserves",
    "C06_canonicalizer_preserves",
    "C06_passes_total"
   ],
   "note": ""
  },
  {
   "property": "C07",
   "status": "proved",
   "theorems": [
    "C07_redefinition_sound",
    "C07_redefinition_complete"
   ],
   "note": ""
  },
  {
   "property": "C08",
   "status": "partial",
   "theorems": [
    "C08_honest_partial",
    "C08_sound_partial",
    "C08_redefinition_blocks_refuted"
   ],
   "note": "Proved for all programs with blocks: every satisfying assignment that follows the directives still satisfies the constraints, with the same directive outputs and logs. Soundness proved when no replaced variable is left over in a constraint, a replacement or the interface (settled, decided on the output of the pass). REFUTED otherwise: a variable can be replaced after it was used in a kept constraint, and its directive is dropped"
  },
  {
   "property": "C09",
   "status": "proved",
   "theorems": [
    "C09_directive_merge"
   ],
   "note": ""
  },
  {
   "property": "C10",
   "status": "partial",
   "theorems": [
    "C10_duplicates_constraints",
    "C10_logs_refuted"
   ],
   "note": "constraints: proved (no hash collision among the program's statements); logs: REFUTED, repeated identical logs are dropped"
  },
  {
   "property": "C11",
   "status": "proved",
   "theorems": [
    "C11_optimizer_sound",
    "C11_optimizer_executes",
    "C11_flat_is_optimize"
   ],
   "note": "assuming the 64-bit statement hash has no collision among the statements of the program"
  },
  {
   "property": "C12",
   "status": "proved",
   "theorems": [
    "C12_decomposition_forced",
    "C12_truncation_forced",
    "C12_decomposition_honest"
   ],
   "note": ""
  },
  {
   "property": "C13",
   "status": "proved",
   "theorems": [
    "C13_equality_test",
    "C13_equality_test_honest"
   ],
   "note": ""
  },
  {
   "property": "C14",
   "status": "proved",
   "theorems": [
    "C14_constant_comparison_of_bits",
    "C14_enforced",
    "C14_enforced_honest"
   ],
   "note": ""
  },
  {
   "property": "C15",
   "status": "proved",
   "theorems": [
    "C15_lt_constant",
    "C15_le_constant",
    "C15_gt_constant",
    "C15_honest"
   ],
   "note": ""
  },
  {
   "property": "C16",
   "status": "proved",
   "theorems": [
    "C16_dynamic_field_lt",
    "C16_dynamic_field_lt_honest",
    "C16_uint_lt",
    "C16_uint_lt_honest"
   ],
   "note": ""
  },
  {
   "property": "C17",
   "status": "proved",
   "theorems": [
    "C17_boolean_expressions",
    "C17_boolean_expressions_honest"
   ],
   "note": "for sub-expressions meeting the recorded premises (wt, divs, cache notes); see DESIGN"
  },
  {
   "property": "C18",
   "status": "proved",
   "theorems": [
    "C18_field_expressions",
    "C18_field_expressions_honest"
   ],
   "note": ""
  },
  {
   "property": "C19",
   "status": "proved",
   "theorems": [
    "C19_uint_expressions",
    "C19_uint_expressions_honest"
   ],
   "note": ""
  },
  {
   "property": "C20",
   "status": "proved",
   "theorems": [
    "C20_euclidean_division",
    "C20_euclidean_division_honest"
   ],
   "note": ""
  },
  {
   "property": "C21",
   "status": "partial",
   "theorems": [
    "C21_optimizer_preserves",
    "C21_maxima_partial",
    "C21_shift_maximum_refuted",
    "C21_shift_execution_refuted"
   ],
   "note": "maxima proved for expressions without left shifts of unreduced operands (smax_ok_prog). For the meaning of circuits the weaker max_ok_prog suffices, which ignores maxima of shifts that are operands of bitwise operators; REFUTED for shifts"
  },
  {
   "property": "C22",
   "status": "partial",
   "theorems": [
    "C22_subtraction_partial",
    "C22_subtraction_refuted"
   ],
   "note": "proved when the right operand's width is below required_bits-1; REFUTED at the boundary"
  },
  {
   "property": "C23",
   "status": "proved",
   "theorems": [
    "C23_assertions_enforced",
    "C23_assertions_honest"
   ],
   "note": ""
  },
  {
   "property": "C24",
   "status": "proved",
   "theorems": [
    "C24_arguments_in_range"
   ],
   "note": ""
  },
  {
   "property": "C25",
   "status": "partial",
   "theorems": [
    "C25_meaning_partial",
    "C25_form",
    "C25_affine_accepted",
    "C25_degree_refuted"
   ],
   "note": "degree at most two: meaning kept, proved; rank-1 form of everything accepted: proved; rejection of higher degrees REFUTED (x === a*a*b becomes x === 0)"
  },
  {
   "property": "C26",
   "status": "partial",
   "theorems": [
    "C26_size",
    "C26_fields_wide",
    "C26_decode_encode_partial",
    "C26_encode_decode",
    "C26_decode_total_partial",
    "C26_injective",
    "C26_values_partial",
    "C26_empty_elements_refuted"
   ],
   "note": "proved for every type without an array of zero-size elements; REFUTED for those (chunks(0) panics, e.g. on field[0][2])"
  },
  {
   "property": "C27",
   "status": "partial",
   "theorems": [
    "C27_roundtrip",
    "C27_typed",
    "C27_arguments",
    "C27_uint_exact",
    "C27_out_of_range",
    "C27_field_hex",
    "C27_field_numerals_refuted"
   ],
   "note": "round trip, typing, rejection of out-of-range integers: proved; REFUTED for field strings: the decimal numeral 010 is read as 16"
  },
  {
   "property": "C28",
   "status": "partial",
   "theorems": [
    "C28_print_parse",
    "C28_print",
    "C28_decimal_exact",
    "C28_below_modulus",
    "C28_radix_exact",
    "C28_compact",
    "C28_overflow_refuted",
    "C28_leading_zero_refuted"
   ],
   "note": "printing, exact description of both parsers, hexadecimal range check: proved; REFUTED for decimals: a numeral at or above the modulus is reduced silently, one with a leading zero is rejected"
  },
  {
   "property": "C29",
   "status": "proved",
   "theorems": [
    "C29_roundtrip",
    "C29_truncated",
    "C29_accepted",
    "C29_computed_witness"
   ],
   "note": "Round trip for every witness and field, every strict prefix is rejected, and an exact description of the accepted files (usize/isize of 8 bytes)."
  },
  {
   "property": "C30",
   "status": "partial",
   "theorems": [
    "C30_header_roundtrip",
    "C30_ids_distinct",
    "C30_field_recognised",
    "C30_foreign_rejected",
    "C30_reported_name_partial",
    "C30_reported_name_refuted"
   ],
   "note": "Everything but the reported name is proved (the identifiers are computed by a SHA-256 model); the name reported for pallas and vesta programs is wrong in the code (refuted)."
  },
  {
   "property": "C31",
   "status": "proved",
   "theorems": [
    "C31_truncated"
   ],
   "note": "Every strict prefix of a program file is rejected, over every field; the failure is a panic when the header is complete."
  },
  {
   "property": "C32",
   "status": "proved",
   "theorems": [
    "C32_exact",
    "C32_accepts_iff",
    "C32_log_counts_as_constraint"
   ],
   "note": "the check reports exactly the private inputs that occur in no constraint, directive input or log; an occurrence in a log counts, as the third theorem shows"
  },
  {
   "property": "C33",
   "status": "proved",
   "theorems": [
    "C33_setup_total",
    "C33_proving_total",
    "C33_same_circuit",
    "C33_one_wire_per_variable",
    "C33_equisatisfiable",
    "C33_proving_values",
    "C33_blocks_are_skipped"
   ],
   "note": "for block-free programs, which the cleaning pass guarantees; the last theorem shows that blocks would be skipped silently"
  },
  {
   "property": "C34",
   "status": "proved",
   "theorems": [
    "C34_compiled",
    "C34_optimized",
    "C34_other_orders_refuted"
   ],
   "note": "for compiled and optimised programs, run by the interpreter; for programs that define ~out_1 first the order differs"
  },
  {
   "property": "C35",
   "status": "partial",
   "theorems": [
    "C35_r1cs_meaning",
    "C35_public_part",
    "C35_agreement_iff",
    "C35_compiled_partial",
    "C35_agreement_refuted"
   ],
   "note": "the r1cs means the program's constraints and the public part always agrees; the whole numbering agrees iff every private variable of the witness occurs in a constraint; REFUTED otherwise, for a compiled program the unconstrained-input check accepts (private input used only in a log)"
  },
  {
   "property": "C36",
   "status": "proved",
   "theorems": [
    "C36_boolean_arrays",
    "C36_arrays"
   ],
   "note": ""
  },
  {
   "property": "C37",
   "status": "proved",
   "theorems": [
    "C37_representation_unique",
    "C37_checked_add",
    "C37_checked_mul"
   ],
   "note": ""
  },
  {
   "property": "C38",
   "status": "partial",
   "theorems": [
    "C38_results",
    "C38_failures_partial",
    "C38_failures_refuted",
    "C38_remainder_refuted"
   ],
   "note": "results: proved; failures: proved for strict programs, REFUTED in general (unused failing definitions are dropped)"
  },
  {
   "property": "C39",
   "status": "partial",
   "theorems": [
    "C39_expressions",
    "C39_programs",
    "C39_logs",
    "C39_errors",
    "C39_output",
    "C39_failures_refuted"
   ],
   "note": "values, results and compile-time errors: proved (the output must read only what it defines, a computable check, which always holds for programs coming from the flattener: C47_closed, C51_closed); failures: REFUTED, e.g. 0 * (1 / x) is folded to 0"
  },
  {
   "property": "C40",
   "status": "proved",
   "theorems": [
    "C40_divisions_guarded",
    "C40_meaning",
    "C40_guards_kept"
   ],
   "note": ""
  },
  {
   "property": "C41",
   "status": "proved",
   "theorems": [
    "C41_compile_sound",
    "C41_compile_complete",
    "C41_compiled_defined_before_use",
    "C41_optimized_sound",
    "C41_optimized_complete",
    "C41_source_sound",
    "C41_source_sound_strict",
    "C41_source_complete",
    "C41_source_optimized_sound",
    "C41_source_optimized_complete",
    "C41_propagated_sound",
    "C41_propagated_complete"
   ],
   "note": "assuming no stale bit-cache lookup (decided by computation); C42 shows the assumption is needed. The source theorems start before panic extraction, dead-code elimination and uint optimisation"
  },
  {
   "property": "C42",
   "status": "partial",
   "theorems": [
    "C42_meaning_partial",
    "C42_no_uint_partial",
    "C42_cached_bits_refuted",
    "C42_execution_refuted"
   ],
   "note": "REFUTED in general; proved when no cached decomposition was reused inexactly (cache_clean, computed on the generated code), and cache_clean proved for programs without unsigned integers left"
  },
  {
   "property": "C43",
   "status": "partial",
   "theorems": [
    "C43_field_sizes",
    "C43_r1cs_file_partial",
    "C43_r1cs_meaning_partial",
    "C43_witness_file",
    "C43_header_size_iff",
    "C43_bw6_761_refuted"
   ],
   "note": "wtns files: proved over every field; r1cs files: proved over every field of 32 bytes (five of the six); REFUTED over Bw6_761 (header size wrong, coefficients cut to 32 bytes)"
  },
  {
   "property": "C44",
   "status": "proved",
   "theorems": [
    "C44_roundtrip",
    "C44_blocks_rejected",
    "C44_hash_collision",
    "C44_deep_solver_refuted"
   ],
   "note": "Proved under the hypotheses that the hash of the solver functions has no collision on the program and that their own serialisation is readable; without the latter (nesting above serde_cbor's limit) it is refuted. Spans absent, errors and log formats opaque."
  },
  {
   "property": "C45",
   "status": "partial",
   "theorems": [
    "C45_readable_prefix_partial",
    "C45_dropped_refuted"
   ],
   "note": "The code silently stops at the first statement it cannot read: refuted by a one-byte corruption; proved: the statements before it are the program's."
  },
  {
   "property": "C46",
   "status": "proved",
   "theorems": [
    "C46_flatten_runs",
    "C46_inputs",
    "C46_output",
    "C46_unused_components_refuted",
    "C46_empty_elements_refuted"
   ],
   "note": "Loop-free, call-free typed programs (after reduction). Undefined operations in components nobody uses are dropped by the flattener (shown by C46_unused_components_refuted); the code panics on dynamic selects in arrays of empty elements (C46_empty_elements_refuted)."
  },
  {
   "property": "C47",
   "status": "proved",
   "theorems": [
    "C47_sound",
    "C47_optimized_sound",
    "C47_complete",
    "C47_optimized_complete",
    "C47_fields",
    "C47_closed"
   ],
   "note": "Side conditions are stated in the theorems (max_ok_prog, cache safety); scoping of the propagated program is proved, not assumed (C47_closed). Assertions: those at the top level of the main function. Rejections by built-in functions (range checks of unpack) are enforced when dead-code elimination drops none of their calls (checks_kept, a computed condition)."
  },
  {
   "property": "C48",
   "status": "partial",
   "theorems": [
    "C48_runs_partial",
    "C48_enforced_partial",
    "C48_assignment",
    "C48_aggregate_refuted",
    "C48_recomputed_refuted"
   ],
   "note": "The full property is false (the two _refuted theorems: an aggregate assigned from its own components, and a right-hand side that is recomputed after the elements before it changed and becomes undefined). Proved for the class safe_write: the part is a scalar or the right-hand side does not read the variable; with a computed index the right-hand side and indices contain no inlined blocks and its partial operations do not read the variable. Goes from the typed program through VariableWriteRemover, ConditionRedefiner and the flattener."
  },
  {
   "property": "C49",
   "status": "partial",
   "theorems": [
    "C49_runs",
    "C49_no_new_results",
    "C49_typed",
    "C49_false_assertion",
    "C49_rejected_builtin",
    "C49_undefined_refuted",
    "C49_wide_unpack_refuted"
   ],
   "note": "Proved for all typed programs without calls and loops (what the pass is given after reduction): results, logs and violations are kept. The equivalence is false on inputs where the program is undefined (C49_undefined_refuted: a division by zero is folded away) and for unpack of a constant to more bits than the field has (C49_wide_unpack_refuted), which the typing of built-ins excludes."
  },
  {
   "property": "C50",
   "status": "partial",
   "theorems": [
    "C50_runs_partial",
    "C50_same_runs_partial",
    "C50_no_new_results_partial",
    "C50_flat",
    "C50_depth",
    "C50_propagated_partial",
    "C50_self_slice_refuted",
    "C50_dropped_call_refuted"
   ],
   "note": "Results: proved for every program in which no assignment x = e has a slice in e that mentions x (C50_self_slice_refuted: such a slice is renamed twice and the reduced program refers to itself). Logs and violations: proved when calls are not operands of other operators (calls_apart); otherwise folding before inlining drops a call with its assertions (C50_dropped_call_refuted: 0 * f(x)). block expressions, constants and assembly are not in the model."
  },
  {
   "property": "C51",
   "status": "proved",
   "theorems": [
    "C51_output",
    "C51_sound",
    "C51_optimized_sound",
    "C51_complete",
    "C51_optimized_complete",
    "C51_closed"
   ],
   "note": "For the class of assignments of C48 (safe_write: the part assigned is a scalar, or the right-hand side does not read the variable); outside it C48 shows the assignment itself is wrong. Side conditions as for C47, all computable."
  },
  {
   "property": "C52",
   "status": "proved",
   "theorems": [
    "C52_sound",
    "C52_optimized_sound",
    "C52_complete",
    "C52_optimized_complete"
   ],
   "note": "For programs of the classes of C50 (no assignment x = e with a slice in e that mentions x) and C48 (safe_write); C48 and C50 show the property is false outside them. Calls may be nested in expressions; only the statements about violations and about the logs (C52_complete: equality rather than subsequence) need calls to stand alone (calls_apart). Violations: of assertions, of assignments out of bounds, and of the domains of built-in functions, provided dead-code elimination drops no built-in with a restricted domain (checks_kept, computed; C57_dropped_check_refuted shows it is needed), and calls_apart. The remaining side conditions are computable checks on the intermediate programs."
  },
  {
   "property": "C53",
   "status": "partial",
   "theorems": [
    "C53_reads_partial",
    "C53_writes",
    "C53_nested_refuted"
   ],
   "note": "Writes: proved. Reads: proved for reads that are not inside another read; REFUTED for the others (a[3][0] with a of size 3 is accepted, and the flattener crashes)."
  },
  {
   "property": "C54",
   "status": "proved",
   "theorems": [
    "C54_exported",
    "C54_models",
    "C54_no_loss",
    "C54_satisfiable"
   ],
   "note": "The script is read from its text by an independent reader (SmtSpec.v)."
  },
  {
   "property": "C55",
   "status": "proved",
   "theorems": [
    "C55_checks",
    "C55_exact",
    "C55_optimized"
   ],
   "note": "no_uint is a computable check of the flat program after constant propagation; the remaining hypotheses are those of C52 on the source program (each needed, see C48-C50)."
  },
  {
   "property": "C56",
   "status": "proved",
   "theorems": [
    "C56_strict_unpack_unique",
    "C56_strict_unpack_total",
    "C56_unchecked_unpack_refuted"
   ],
   "note": "The unchecked decomposition is not unique (C56_unchecked_unpack_refuted: over bn254 the bits of 0 and the bits of p both satisfy the constraints for the element 0). The soundness theorems of the whole compiler (C40, C41, C47, C51, C52, C55, C57) assume unpacks_checked: every full-width unpack is followed by the strict comparison of its bits; this is computed on the program."
  },
  {
   "property": "C57",
   "status": "proved",
   "theorems": [
    "C57_pack",
    "C57_unpack",
    "C57_unpack_unchecked",
    "C57_pack_unpack",
    "C57_to_field",
    "C57_from_field",
    "C57_u32s_to_bits",
    "C57_bits_to_u32s",
    "C57_bits_are_words",
    "C57_pack_u32",
    "C57_lookup1",
    "C57_lookup2",
    "C57_lookup3",
    "C57_direction",
    "C57_add",
    "C57_negate",
    "C57_on_curve",
    "C57_group",
    "C57_scalar_mult",
    "C57_order_check",
    "C57_babyjubjub",
    "C57_sound",
    "C57_complete",
    "C57_unpack128_truncates_refuted",
    "C57_dropped_check_refuted"
   ],
   "note": "Functions transcribed as terms of the source language model (Std.v); hashes and signatures are not modelled. Division by zero makes the addition undefined off complete curves. The comment of unpack128.zok (truncation) is false: it rejects (C57_unpack128_truncates_refuted). A call of unpack whose result is unused is dropped with its range check (C57_dropped_check_refuted); otherwise (checks_kept, computed) rejections are enforced."
  },
  {
   "property": "C58",
   "status": "proved",
   "theorems": [
    "C58_round",
    "C58_sha256",
    "C58_512bit",
    "C58_1024bit",
    "C58_1536bit",
    "C58_256bit_padded",
    "C58_512bit_padded",
    "C58_1024bit_padded",
    "C58_padded_bytes",
    "C58_sound",
    "C58_complete",
    "C58_preimage",
    "C58_circuit"
   ],
   "note": "Functions transcribed as terms of the source language model (Sha.v); specification: FIPS 180-4 written independently (Sha256.v, checked on its test vectors). Circuits: the compiler theorems C52 with their computed side conditions, checked by computation for rotr, temp1, temp2 and for the whole of sha256Padded<3> (C58_circuit: no hypothesis about the compiled program remains)."
  },
  {
   "property": "C59",
   "status": "partial",
   "theorems": [
    "C59_padded_bits_partial",
    "C59_padded_447_refuted"
   ],
   "note": "Proved for all L with L + 65 not a multiple of 512. REFUTED for L = 447: one block of zeros too many is added, the result is not SHA-256."
  },
  {
   "property": "C60",
   "status": "proved",
   "theorems": [
    "C60_inference_exact",
    "C60_signature",
    "C60_instantiation",
    "C60_output_type"
   ],
   "note": "For every signature with distinct generic parameters, resolved constants and structs as declared, and every call with concrete types: accepted with an assignment iff it is the only one that agrees with the explicit arguments and makes the declared signature that of the call. Struct types may leave generic arguments open."
  }
 ]
}