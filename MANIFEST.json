{
 "claims": [
  {
   "property": "C01",
   "status": "proved",
   "theorems": [
    "C01_split_delims"
   ],
   "note": ""
  },
  {
   "property": "C02",
   "status": "proved",
   "theorems": [
    "C02_split_join",
    "C02_split_lossless"
   ],
   "note": ""
  },
  {
   "property": "C03",
   "status": "partial",
   "theorems": [
    "C03_replaceAll_partial",
    "C03_spec_functional",
    "C03_replaceAll_terminates_partial",
    "C03_replaceAll_short_refuted",
    "C03_replaceAll_diverges_refuted"
   ],
   "note": "Full claim false: refuted for shorter replacements (an abutting occurrence is skipped) and for longer ones containing the pattern (no termination). Proved when |old|<=|new| and the re-read tail of new cannot start a match; termination proved when |new|<=|old|."
  },
  {
   "property": "C04",
   "status": "partial",
   "theorems": [
    "C04_wildcard_total",
    "C04_wildcard_partial",
    "C04_wildcard_false_negative_refuted",
    "C04_wildcard_false_positive_refuted"
   ],
   "note": "Full claim false both ways (witnesses abcb/a*b and a/a*a). Proved: total; exact for patterns without star, with one trailing star, and with one inner star when the last part occurs once and the text is long enough."
  },
  {
   "property": "C05",
   "status": "proved",
   "theorems": [
    "C05_editDistance"
   ],
   "note": ""
  },
  {
   "property": "C06",
   "status": "partial",
   "theorems": [
    "C06_minSwaps_count",
    "C06_minSwaps_sign_partial",
    "C06_minSwaps_sign_refuted"
   ],
   "note": "Number of exchanges proved minimal for every permutation. Sign refuted for a 3-cycle of fermions, proved for products of disjoint exchanges."
  },
  {
   "property": "C07",
   "status": "proved",
   "theorems": [
    "C07_trim"
   ],
   "note": ""
  },
  {
   "property": "C08",
   "status": "partial",
   "theorems": [
    "C08_key_partial",
    "C08_key_refuted"
   ],
   "note": "The 32-bit key cannot be injective: explicit collision. Proved: one-character differences are always distinguished."
  },
  {
   "property": "C09",
   "status": "partial",
   "theorems": [
    "C09_tokenise_partial",
    "C09_pieces",
    "C09_glued_comment_refuted"
   ],
   "note": "Exact for every line written as blank-separated words and balanced quotations with an optional comment after a blank; for every line whatsoever the result consists of pieces of the line in order. Refuted: a '#' glued to a word swallows the word."
  },
  {
   "property": "C10",
   "status": "partial",
   "theorems": [
    "C10_last_wins",
    "C10_ordered_partial",
    "C10_ordered_duplicate_refuted"
   ],
   "note": "Lookup returns the last line for every history. The ordered list is exact when keys are distinct; refuted when a key is repeated (listed twice)."
  },
  {
   "property": "C11",
   "status": "partial",
   "theorems": [
    "C11_blocks_partial",
    "C11_conservation",
    "C11_open_block_refuted",
    "C11_stray_brace_refuted",
    "C11_empty_block_refuted"
   ],
   "note": "Exact for files whose blocks balance; conservation of words for every file. Refuted: an open block at the end and everything after a stray closing brace are dropped silently; a line of braces only is undefined behaviour."
  },
  {
   "property": "C12",
   "status": "partial",
   "theorems": [
    "C12_consistent_partial",
    "C12_destroy_partial",
    "C12_addOrGet",
    "C12_rename",
    "C12_duplicate_refuted",
    "C12_unregister_refuted",
    "C12_double_delete_refuted",
    "C12_subscript_refuted"
   ],
   "note": "Proved for every history of additions of new names, addOrGet, renamings and changes of values. Refuted for adding a taken name (stored but not findable), for removal (still findable by name), for adding one object twice (double delete) and for subscripting a missing name."
  },
  {
   "property": "C13",
   "status": "partial",
   "theorems": [
    "C13_values",
    "C13_covariance",
    "C13_stale_index_refuted"
   ],
   "note": "Mapping, values and covariance proved for every consistent set. Refuted: an index left over from an earlier fit lets setFromMinuitState overwrite a parameter that has been fixed since."
  },
  {
   "property": "C14",
   "status": "partial",
   "theorems": [
    "C14_declared",
    "C14_nothing_partial",
    "C14_number_flag_refuted"
   ],
   "note": "Declaring lines proved exact for every documented flag word. Other lines add nothing, except that the empty word and any number other than 5 pass as a flag (refuted with 17)."
  },
  {
   "property": "C15",
   "status": "partial",
   "theorems": [
    "C15_round_trip",
    "C15_unknown_word_partial",
    "C15_number",
    "C15_number_refuted",
    "C15_empty_refuted"
   ],
   "note": "Names round-trip and unknown words parse as Invalid, except that the empty word parses as the first enumerator and numbers out of range are accepted."
  },
  {
   "property": "C16",
   "status": "partial",
   "theorems": [
    "C16_value_refuted",
    "C16_flag_partial"
   ],
   "note": "The constructor without a flag initialises its members from themselves (undefined behaviour for all arguments). The constructor with a flag is right."
  },
  {
   "property": "C17",
   "status": "partial",
   "theorems": [
    "C17_file_partial",
    "C17_table_partial",
    "C17_minos_partial",
    "C17_print_partial",
    "C17_options_refuted",
    "C17_fixed_offset_refuted",
    "C17_no_offset_refuted"
   ],
   "note": "proved for the result file, the table printed after a fit (offsets with a flag that is not printed), minos output and the printing of one parameter: two states that differ only by moving value into offset give equal output. Refuted for the options file (prints the true value), for offsets declared fixed, and a blinded parameter without offset is undefined behaviour. The statement takes sums value+offset as exact."
  },
  {
   "property": "C18",
   "status": "partial",
   "theorems": [
    "C18_read_refuted",
    "C18_no_parameters_partial"
   ],
   "note": "refuted: reading back any file with an ordinary parameter indexes past the end of the vector read. Proved for what surrounds the parameters: status, fractions and observables."
  },
  {
   "property": "C19",
   "status": "partial",
   "theorems": [
    "C19_add_partial",
    "C19_sub_partial",
    "C19_mul_partial",
    "C19_div_partial",
    "C19_fpow_partial",
    "C19_unary",
    "C19_pow_partial",
    "C19_tiny_refuted",
    "C19_zero_over_zero_refuted"
   ],
   "note": "proved for exact arithmetic and constants on which the epsilon tests are exact (for instance integers for + - *), including termination of the operators; refuted for constants below the machine epsilon and for 0/x at x=0"
  },
  {
   "property": "C20",
   "status": "partial",
   "theorems": [
    "C20_text_partial",
    "C20_unambiguous",
    "C20_digits_refuted",
    "C20_fmod_refuted"
   ],
   "note": "proved for every nesting of the nodes, with the text as a sequence of C++ tokens read by a recursive-descent reader with the C++ precedence, for exact arithmetic, constants that survive %g and function nodes whose in-memory meaning is that of the C++ function; refuted for constants with more than six digits and for fmod"
  },
  {
   "property": "C21",
   "status": "proved",
   "theorems": [
    "C21_documented",
    "C21_conventional",
    "C21_unambiguous"
   ],
   "note": "proved for the grammar of the documented precedence (one level per operator, functions of a bracket or a name), for arbitrary operations; also for the usual grammar when the operations satisfy a*b/c = a*(b/c) and a+b-c = a+(b-c); braces not modelled"
  },
  {
   "property": "C22",
   "status": "partial",
   "theorems": [
    "C22_exact_text_partial",
    "C22_polynomial_partial",
    "C22_power_refuted",
    "C22_digits_refuted",
    "C22_divisor_refuted"
   ],
   "note": "Proved that Simplify always returns and keeps the value (wherever the value is defined) for (a) sums, products and quotients of constants, parameters, functions, conditions and sub-expressions when constants are printed exactly and no divisor contains a quotient, and (b) polynomials whose coefficients are arbitrary and whose function arguments contain only exactly printed constants. Exact arithmetic; expandSubTrees off; sorts are arbitrary permutations. Refuted in general: powers and other binary nodes in a product are dropped, and terms whose texts agree to six digits are merged."
  },
  {
   "property": "C23",
   "status": "partial",
   "theorems": [
    "C23_order_partial",
    "C23_two_wrappers_refuted"
   ],
   "note": "Proved for every nesting and sharing with one node per inner expression and no key collision, including termination. Refuted: two nodes with different keys around one inner expression leave a key undefined."
  },
  {
   "property": "C24",
   "status": "partial",
   "theorems": [
    "C24_ranges",
    "C24_sizes_partial",
    "C24_function_objects",
    "C24_spline_refuted"
   ],
   "note": "Proved: one range per name, disjoint, within the total; own cell for each function object. Partial: the range has the size asked for only when sizes depend on the name; refuted for a spline named like a parameter."
  },
  {
   "property": "C25",
   "status": "partial",
   "theorems": [
    "C25_derivative_partial",
    "C25_arcsine_refuted",
    "C25_zero_refuted"
   ],
   "note": "Proved over the real numbers (Coq's Reals, whose axioms Print Assumptions lists) for log, sqrt, exp, sin, cos, tan, atan, rsqrt and imag at every interior point of the domain; the tests against 0 and 1 are taken as exact. Refuted for asin and acos (wrong sign) and for abs, norm, real and conj (0). LGamma not treated."
  },
  {
   "property": "C26",
   "status": "proved",
   "theorems": [
    "C26_bijection"
   ],
   "note": "Both functions for every list of dimensions; the product of the dimensions is assumed to fit the unsigned type."
  },
  {
   "property": "C27",
   "status": "partial",
   "theorems": [
    "C27_product_partial",
    "C27_scalar_refuted"
   ],
   "note": "Every pair of indexed tensors over a commutative ring with at least one index each, no index twice on one tensor and equal dimensions of repeated indices. A factor without indices is undefined behaviour (refuted theorem)."
  },
  {
   "property": "C28",
   "status": "partial",
   "theorems": [
    "C28_antisymmetric_partial",
    "C28_overflow_refuted"
   ],
   "note": "Ranks 1 to 7; from rank 8 the int product overflows (refuted theorem). std::next_permutation is taken by its contract."
  },
  {
   "property": "C29",
   "status": "partial",
   "theorems": [
    "C29_inverse",
    "C29_leading_blocks",
    "C29_symmetrised_refuted"
   ],
   "note": "Every size and every matrix over a field without a zero pivot, and every matrix with regular leading blocks. A tensor on which a symmetry was imposed is inverted wrongly (refuted theorem). Exact arithmetic; make_cse is the identity on values."
  },
  {
   "property": "C30",
   "status": "partial",
   "theorems": [
    "C30_cells",
    "C30_events_partial",
    "C30_many_events_refuted",
    "C30_update",
    "C30_resize_partial",
    "C30_resize_refuted"
   ],
   "note": "Every history of calls in both layouts, every order of the events in update; below 2^32 events. Resizing a filled store and 2^32 events or more are refuted."
  },
  {
   "property": "C31",
   "status": "partial",
   "theorems": [
    "C31_blocks_partial",
    "C31_orphan_fields_refuted"
   ],
   "note": "Every registration sequence on a store that starts without fields; the single-function constructor and clear() leave fields without owner (refuted theorem). Ratio of sizes rounded down as in the code."
  },
  {
   "property": "C32",
   "status": "partial",
   "theorems": [
    "C32_cache_partial",
    "C32_same_name_refuted",
    "C32_in_place_refuted"
   ],
   "note": "proved for every history of parameter changes, data-set changes, resets and prepare calls, with elements of different names and data sets not changed in place; two findings (same decay descriptor twice; data set changed in place). Scalar build, exact values."
  },
  {
   "property": "C33",
   "status": "partial",
   "theorems": [
    "C33_norm_partial"
   ],
   "note": "proved over the real numbers on the state reached by every history; floating-point rounding not modelled; elements have different names"
  },
  {
   "property": "C34",
   "status": "proved",
   "theorems": [
    "C34_queue"
   ],
   "note": "proved for every list of requests and every batch size"
  },
  {
   "property": "C35",
   "status": "proved",
   "theorems": [
    "C35_sum"
   ],
   "note": "proved over the real numbers for every partition of the normalisation set into groups"
  },
  {
   "property": "C36",
   "status": "partial",
   "theorems": [
    "C36_once_partial",
    "C36_live_partial",
    "C36_no_worker_refuted",
    "C36_after_wait_refuted",
    "C36_disabled_refuted"
   ],
   "note": "proved for every number of workers but zero, every number of callers and every schedule, including spurious wake-ups; tasks that use the pool themselves and the unlocked write of m_stop are not modelled; findings: no workers, use after waitForStoppedThreads, disabled pool"
  },
  {
   "property": "C37",
   "status": "partial",
   "theorems": [
    "C37_partition_partial",
    "C37_two_samples",
    "C37_ties_refuted",
    "C37_small_sample_refuted",
    "C37_constructor_refuted"
   ],
   "note": "Total, numbered and minimum kept for any sample of at least two events; bins agree with the training when no two events share a coordinate. Refuted for ties, for samples of fewer than two events and for the EventList + ArgumentPack constructor. The two-sample division agrees always. Arithmetic exact on rationals; order of ties in std::sort and the coordinate order by variance are arbitrary."
  },
  {
   "property": "C38",
   "status": "partial",
   "theorems": [
    "C38_round_trip",
    "C38_node_order_refuted"
   ],
   "note": "Full for voxel and bin numbers of every point. The order of nodes() is not preserved (finding). Printing and reading of single numbers is assumed to round trip (17 digits)."
  },
  {
   "property": "C39",
   "status": "partial",
   "theorems": [
    "C39_training_partial",
    "C39_two_samples",
    "C39_median_refuted",
    "C39_small_sample_refuted",
    "C39_best_refuted"
   ],
   "note": "Two-sample training proved for all samples; one-sample training when no coincidences. Refuted for a median equal to the mean, for samples too small to divide and for Strategy::best."
  },
  {
   "property": "C40",
   "status": "partial",
   "theorems": [
    "C40_whole_weights_partial",
    "C40_loss_partial",
    "C40_fractions_refuted"
   ],
   "note": "whole weights within int proved exact and the loss bounded for weights >= 0; the claim itself is false: partial sums are cut to integers, so fractional weights sum to 0"
  },
  {
   "property": "C41",
   "status": "partial",
   "theorems": [
    "C41_positions_partial",
    "C41_contents",
    "C41_removal_refuted",
    "C41_self_append_refuted",
    "C41_resize_refuted"
   ],
   "note": "holds for every history of insertions, appends of other lists, resizes, clears and transforms; erase and filter leave stale indices, self-append is out of range, resize wipes the events (refuted)"
  },
  {
   "property": "C42",
   "status": "partial",
   "theorems": [
    "C42_slots_partial",
    "C42_no_energy_refuted",
    "C42_decay_time_refuted",
    "C42_resize_refuted",
    "C42_extension_refuted",
    "C42_name_clash_refuted"
   ],
   "note": "proved with the energy in the format and names that do not clash with extensions; without the energy the decay time and the last energy are outside the event, resize leaves no room for the decay time, extensions are not counted by eventSize (refuted). The alternative naming is covered only when the stubs are by position."
  },
  {
   "property": "C43",
   "status": "partial",
   "theorems": [
    "C43_same_particles",
    "C43_conjugate_partial",
    "C43_mismatch",
    "C43_multiplicity_refuted",
    "C43_too_many_refuted"
   ],
   "note": "proved when the ids are those declared, or their opposites with at least one id not declared, or neither; with other multiplicities the address 999 is used (refuted for all such ids)"
  },
  {
   "property": "C44",
   "status": "proved",
   "theorems": [
    "C44_swap",
    "C44_reorder",
    "C44_masses",
    "C44_invariance"
   ],
   "note": "over any commutative ring; rounding of doubles is not modelled"
  },
  {
   "property": "C45",
   "status": "partial",
   "theorems": [
    "C45_generation",
    "C45_bound_refuted",
    "C45_index_refuted"
   ],
   "note": "densities are rationals; NaN values are not modelled. The bound is taken from the first block (refuted that it bounds later trials); with TreePhaseSpace the stored density is that of event 0 (refuted)"
  },
  {
   "property": "C46",
   "status": "partial",
   "theorems": [
    "C46_event",
    "C46_safe",
    "C46_weight",
    "C46_live",
    "C46_two_bodies",
    "C46_threshold_refuted",
    "C46_below_threshold_refuted",
    "C46_one_particle_refuted",
    "C46_many_particles_refuted"
   ],
   "note": "PhaseSpace::makeEvent over the real numbers. Events conserve momentum and are on shell, weights are bounded, the loop is live; refutations at and below threshold, for one particle and for more than kMAXP particles. Floating-point rounding is not modelled."
  },
  {
   "property": "C47",
   "status": "partial",
   "theorems": [
    "C47_safe",
    "C47_state",
    "C47_quasi_stable",
    "C47_weight",
    "C47_sampling",
    "C47_boost",
    "C47_accept_partial",
    "C47_ceiling_refuted",
    "C47_ceiling_is_minimum",
    "C47_random",
    "C47_random_refuted"
   ],
   "note": "DecayChainStack and TreePhaseSpace over the real numbers, for any decay chain. Accept-reject is exact for one chain (C47_accept_partial); with several chains the ceiling is the minimum (C47_ceiling_refuted). Missing for the full statement: a correct ceiling, and the random number generator of the vector constructor."
  },
  {
   "property": "C48",
   "status": "partial",
   "theorems": [
    "C48_length",
    "C48_probabilities",
    "C48_empty_refuted",
    "C48_default_refuted"
   ],
   "note": "exact arithmetic over the reals; weights not negative with a positive sum. A zero sum gives NaN probabilities (modelled as None). Proved: the part of [0,1) where an index is drawn has exactly the length weight/sum; an empty distribution and the default constructed one are refuted."
  },
  {
   "property": "C49",
   "status": "partial",
   "theorems": [
    "C49_exact",
    "C49_lost",
    "C49_total",
    "C49_klein",
    "C49_plus_refuted"
   ],
   "note": "any precision and smallest exponent, rounding to nearest with symmetric ties; no overflow. Refuted for operator+ read with operator(): the correction has the wrong sign."
  },
  {
   "property": "C50",
   "status": "partial",
   "theorems": [
    "C50_sum",
    "C50_anti",
    "C50_read_state",
    "C50_read",
    "C50_equal",
    "C50_strong",
    "C50_weak",
    "C50_weak_refuted",
    "C50_transitive_refuted",
    "C50_self_refuted"
   ],
   "note": "the numbers are unbounded integers (int overflow not modelled); characters in the C locale. Refuted: isWeakDecay is true for every resonance; comparison is not transitive; in-place addition of an object to itself empties it."
  },
  {
   "property": "C51",
   "status": "partial",
   "theorems": [
    "C51_anti",
    "C51_names",
    "C51_table",
    "C51_conjugation",
    "C51_names_refuted",
    "C51_conjugation_refuted",
    "C51_added",
    "C51_added_refuted",
    "C51_alias",
    "C51_alias_refuted",
    "C51_odd",
    "C51_odd_refuted",
    "C51_order_partial",
    "C51_order_refuted"
   ],
   "note": "masses, widths and other words take no part and are kept as text; the fields are read by strtol for numbers that fit. Proved for files in which every line has an id of its own; the order only among particles that all have, or all lack, an id. Refuted otherwise, with lines of options/mass_width.csv as witnesses."
  },
  {
   "property": "C52",
   "status": "partial",
   "theorems": [
    "C52_read",
    "C52_J_partial",
    "C52_J_half",
    "C52_J_refuted",
    "C52_polarisations_partial",
    "C52_polarisations_other",
    "C52_polarisations_refuted"
   ],
   "note": "proved for integer spins; every half-integer spin is printed wrongly (C52_J_half, C52_J_refuted)."
  },
  {
   "property": "C53",
   "status": "partial",
   "theorems": [
    "C53_order_partial",
    "C53_order_refuted",
    "C53_greater_refuted",
    "C53_greater",
    "C53_unique",
    "C53_canonical_partial",
    "C53_canonical_refuted",
    "C53_keeps",
    "C53_conjugate"
   ],
   "note": "The comparison of daughters is a strict weak order, and sorting canonical, where no particle meets its antiparticle with the lower charge and ties are alike; both restrictions are needed (refutations: a cycle among Delta(1232) states, daughters differing only in modifiers)."
  },
  {
   "property": "C54",
   "status": "partial",
   "theorems": [
    "C54_couplings",
    "C54_range",
    "C54_range_parity",
    "C54_statistics_refuted",
    "C54_arity"
   ],
   "note": "The list of couplings is exactly the set allowed by angular momentum (and parity) conservation for decays that conserve statistics; for others half-integer L is listed (refutation)."
  },
  {
   "property": "C55",
   "status": "partial",
   "theorems": [
    "C55_read",
    "C55_roundtrip",
    "C55_odd",
    "C55_balanced",
    "C55_valid",
    "C55_valid_refuted",
    "C55_trailing_refuted",
    "C55_empty_refuted",
    "C55_vertex_refuted",
    "C55_swave_refuted",
    "C55_orbital_refuted",
    "C55_comma_refuted"
   ],
   "note": "Reading, printing and re-reading trees of any depth; validity check exact on trees; refutations list malformed texts that pass the check and modifiers lost in printing. Daughters are not re-sorted in this model (C53)."
  },
  {
   "property": "C56",
   "status": "partial",
   "theorems": [
    "C56_selection",
    "C56_spin0",
    "C56_exchange",
    "C56_permute",
    "C56_projection_refuted"
   ],
   "note": "Real arithmetic; spins doubled integers. Zero for projections a spin does not have fails (C56_projection_refuted), so the symmetries are stated for the projections that exist."
  },
  {
   "property": "C57",
   "status": "partial",
   "theorems": [
    "C57_expand",
    "C57_product",
    "C57_polar",
    "C57_matching",
    "C57_identical_refuted",
    "C57_contained_refuted",
    "C57_modifiers_refuted",
    "C57_lost_refuted",
    "C57_extra_refuted"
   ],
   "note": "Modifiers kept as written; for rule sets as in the hypotheses. Identical decaying daughters, names contained in others and modifiers on decaying particles are findings."
  },
  {
   "property": "C58",
   "status": "partial",
   "theorems": [
    "C58_identifier",
    "C58_idempotent",
    "C58_distinct",
    "C58_keyword_refuted",
    "C58_empty_refuted",
    "C58_distinct_refuted",
    "C58_sign_refuted",
    "C58_companion_refuted"
   ],
   "note": "Character classes of the C locale; distinctness for words that can be told apart by their symbols, otherwise findings."
  },
  {
   "property": "C59",
   "status": "partial",
   "theorems": [
    "C59_merge",
    "C59_diagonal",
    "C59_reset",
    "C59_restores",
    "C59_linear",
    "C59_scale",
    "C59_vector",
    "C59_covariance",
    "C59_correlation",
    "C59_weights",
    "C59_reset_refuted",
    "C59_stale_refuted",
    "C59_zero_refuted",
    "C59_objects_refuted"
   ],
   "note": "Real numbers with NaN; matrix inversion is a hypothesis (right inverse)."
  },
  {
   "property": "C60",
   "status": "proved",
   "theorems": [
    "C60_swapChars_involutive"
   ],
   "note": ""
  },
  {
   "property": "C61",
   "status": "partial",
   "theorems": [
    "C61_import_terminates_partial",
    "C61_delivered",
    "C61_self_import_refuted"
   ],
   "note": "Terminates when the import relation has a rank; a self-importing file never terminates."
  },
  {
   "property": "C62",
   "status": "partial",
   "theorems": [
    "C62_last_declaration_partial",
    "C62_override_refuted"
   ],
   "note": "The findable parameter of a name is the last declaration; refuted: every redeclaration adds another floating parameter of the same name."
  },
  {
   "property": "C63",
   "status": "partial",
   "theorems": [
    "C63_options_partial",
    "C63_limit_refuted",
    "C63_complex_refuted",
    "C63_name_refuted"
   ],
   "note": "proved for real parameters with both limits zero or both non-zero; refuted for one limit zero, complex parameters of which one component is limited, and names with _Re inside."
  },
  {
   "property": "C64",
   "status": "proved",
   "theorems": [
    "C64_by_name",
    "C64_reduced"
   ],
   "note": ""
  },
  {
   "property": "C65",
   "status": "partial",
   "theorems": [
    "C65_given_partial",
    "C65_default_partial",
    "C65_unreadable_refuted"
   ],
   "note": "proved for readable values and for absent lines; refuted for unreadable values, which become the empty value instead of the default."
  },
  {
   "property": "C66",
   "status": "partial",
   "theorems": [
    "C66_numbered_partial",
    "C66_default_refuted",
    "C66_early_refuted",
    "C66_dropped_refuted"
   ],
   "note": "proved when the default is the empty value and no value is empty; refuted otherwise (spurious default at the end, early stop, dropped values)."
  },
  {
   "property": "C67",
   "status": "partial",
   "theorems": [
    "C67_returns_partial",
    "C67_sign_refuted",
    "C67_compose_refuted",
    "C67_missing_operator_refuted",
    "C67_empty_refuted"
   ],
   "note": "termination proved; refuted: prefix signs and empty brackets are undefined behaviour, unbracketed functions compose in the wrong order, a missing operator drops operands"
  },
  {
   "property": "C68",
   "status": "proved",
   "theorems": [
    "C68_identical_only",
    "C68_every_arrangement",
    "C68_unbiased"
   ],
   "note": "the generator of the draws is any sequence with draw k <= k"
  },
  {
   "property": "C69",
   "status": "proved",
   "theorems": [
    "C69_orthonormal",
    "C69_projections",
    "C69_recoupling",
    "C69_raising",
    "C69_sign"
   ],
   "note": "Real arithmetic. Together with C69_raising and C69_sign the orthonormality fixes the coefficients in the convention of Condon and Shortley."
  },
  {
   "property": "C70",
   "status": "proved",
   "theorems": [
    "C70_rotation",
    "C70_orthonormal",
    "C70_compose",
    "C70_identity",
    "C70_transpose",
    "C70_outside"
   ],
   "note": "Doubled spins, projections and angles between 0 and pi; square roots of cos^2(a/2) are taken as non-negative. The function is defined for the spins wigner_d accepts; outside the projections of the spin the factorial under the root is zero or negative and the model's value is None."
  },
  {
   "property": "C71",
   "status": "partial",
   "theorems": [
    "C71_natural",
    "C71_unique",
    "C71_invertible",
    "C71_knots",
    "C71_smooth",
    "C71_left_refuted",
    "C71_digits_refuted"
   ],
   "note": "Real numbers; the inverse computed by GSL is taken to be an inverse (it exists for every size, C71_invertible). C71_left_refuted: at and below the first knot the value is that of the last knot. C71_digits_refuted: with constants printed to six digits the value next to a knot can be that of the next knot."
  },
  {
   "property": "C72",
   "status": "proved",
   "theorems": [
    "C72_boost",
    "C72_boost_back",
    "C72_rotate",
    "C72_rotate_sum",
    "C72_masses",
    "C72_rest",
    "C72_helicity",
    "C72_transfer",
    "C72_phi",
    "C72_phi_rotate",
    "C72_acoplanarity",
    "C72_basis"
   ],
   "note": "Real numbers instead of doubles. ROOT's TVector3 and TLorentzVector are modelled as far as used; a vanishing denominator is an error outcome."
  },
  {
   "property": "C73",
   "status": "partial",
   "theorems": [
    "C73_acts_partial",
    "C73_order",
    "C73_inverse",
    "C73_rotate",
    "C73_boost",
    "C73_lorentz",
    "C73_spinor_partial",
    "C73_bispinor",
    "C73_gamma",
    "C73_rest_partial",
    "C73_empty_refuted",
    "C73_rest_refuted"
   ],
   "note": "Proved for every sequence; false for spinors passed through a sequence without transforms, whose cached matrix is that of four dimensions, and for particles slower than the threshold of the rest frame transform, which are boosted along the wrong axis."
  },
  {
   "property": "C74",
   "status": "partial",
   "theorems": [
    "C74_adaptive",
    "C74_tiles",
    "C74_exact",
    "C74_rule",
    "C74_table",
    "C74_one_refuted",
    "C74_dim_refuted"
   ],
   "note": "Proved for every function, box and dimension from 2 to 15, over the real numbers; the scalar variant of the rule. Two findings: in one dimension a function of a number gives zero, and beyond fifteen dimensions the tables of weights are read past their end."
  },
  {
   "property": "C75",
   "status": "partial",
   "theorems": [
    "C75_momentum",
    "C75_threshold",
    "C75_barrier_one",
    "C75_barrier_partial",
    "C75_barrier_refuted",
    "C75_falls_partial",
    "C75_BL",
    "C75_belle",
    "C75_BL_refuted",
    "C75_copy_partial",
    "C75_copy_refuted",
    "C75_width_partial",
    "C75_width_pole",
    "C75_width_sign",
    "C75_pol"
   ],
   "note": "The barrier factors of BL and of the form factors for L up to 3 are exact; for L = 4 the numerator is wrong (C75_barrier_refuted) and the copy in CoupledChannel.cpp has 3*z*9 for 3*z + 9 (C75_copy_refuted); the documentation of BL says that it is normalised at the mass, which only holds for L = 0 (C75_BL_refuted)."
  },
  {
   "property": "C76",
   "status": "partial",
   "theorems": [
    "C76_normalised",
    "C76_cauchy",
    "C76_elastic",
    "C76_peak",
    "C76_phase",
    "C76_phase_refuted",
    "C76_gounaris",
    "C76_gounaris_peak",
    "C76_flatte",
    "C76_flatte_refuted"
   ],
   "note": "Complete but for two findings: the phase of the nonrelativistic Breit-Wigner falls (C76_phase_refuted), and the a(0)(980)+ has no width as the Flatte shape compares names exactly (C76_flatte_refuted)."
  },
  {
   "property": "C77",
   "status": "partial",
   "theorems": [
    "C77_propagator",
    "C77_unitary",
    "C77_poles",
    "C77_one_pole",
    "C77_width",
    "C77_imaginary_refuted",
    "C77_two_channel",
    "C77_focus",
    "C77_palano",
    "C77_closed",
    "C77_phase_space",
    "C77_phsp_twoBody_partial",
    "C77_phsp_twoBody_refuted",
    "C77_pvec_count",
    "C77_pvec_partial",
    "C77_pvec_refuted"
   ],
   "note": "Unitarity is proved for any number of channels and poles; it fails for the kMatrix shape itself, which gives its poles a small imaginary part of the wrong sign for that (C77_imaginary_refuted). The phase space that leaves out the difference of the masses is right for equal masses only (C77_phsp_twoBody), and the background of the production vector is right for one pole only (C77_pvec)."
  },
  {
   "property": "C78",
   "status": "partial",
   "theorems": [
    "C78_lass",
    "C78_lass_phase",
    "C78_glass",
    "C78_glass_partial",
    "C78_glass_refuted",
    "C78_glass_degrees_refuted",
    "C78_isotensor",
    "C78_inelastic"
   ],
   "note": "GLASS is the documented shape when phi_R vanishes and the phases are in radians; C78_glass has the formula of the code for all phases, and the two refutations show where it differs from the documentation."
  },
  {
   "property": "C79",
   "status": "proved",
   "theorems": [
    "C79_pwave",
    "C79_rest",
    "C79_spin1",
    "C79_spin2",
    "C79_covariant"
   ],
   "note": "Expressions stand for the complex numbers they evaluate to; dividing by the square of the momentum needs it nonzero."
  },
  {
   "property": "C80",
   "status": "partial",
   "theorems": [
    "C80_spin",
    "C80_covariant",
    "C80_exchange",
    "C80_scalar",
    "C80_scalar_refuted",
    "C80_gauge_partial",
    "C80_gauge_refuted",
    "C80_helicity"
   ],
   "note": "C80_scalar_refuted: V_TS_D omits the scalar factor. C80_gauge_refuted: S_TV_rm depends on the gauge of the photon. C80_gauge_partial covers the other three radiative vertices."
  },
  {
   "property": "C81",
   "status": "partial",
   "theorems": [
    "C81_projectors",
    "C81_dirac",
    "C81_dirac_anti_partial",
    "C81_antiparticle_refuted",
    "C81_spin3h",
    "C81_currents_partial",
    "C81_axial_refuted",
    "C81_covariant",
    "C81_currents_covariant",
    "C81_maps",
    "C81_scalar_partial",
    "C81_scalar_refuted",
    "C81_chiral_refuted"
   ],
   "note": "Refuted: two antiparticle vertices use the particle projector (C81_antiparticle_refuted), V_fF_S1 is not transverse (C81_axial_refuted), six vertices omit the scalar factor (C81_scalar_refuted), four read the wrong tensor out of bounds (C81_chiral_refuted). The partial theorems cover the remaining vertices."
  },
  {
   "property": "C82",
   "status": "partial",
   "theorems": [
    "C82_interpolates",
    "C82_exact",
    "C82_degenerate_refuted"
   ],
   "note": "Interpolation and exactness are proved for whatever solution the solver returns; refuted: a constant, or any ratio of lower order, makes the matrix singular."
  },
  {
   "property": "C83",
   "status": "partial",
   "theorems": [
    "C83_norm_partial",
    "C83_polfrac_partial",
    "C83_polfrac_refuted",
    "C83_components_partial",
    "C83_components_refuted"
   ],
   "note": "Without polFrac, and with it for a spinless particle, the norm is the average density; with spin and polFrac it is not, and the components ignore polFrac (refuted, two findings)."
  },
  {
   "property": "C84",
   "status": "partial",
   "theorems": [
    "C84_combinations",
    "C84_dim_partial",
    "C84_dim_refuted",
    "C84_hermitian",
    "C84_half",
    "C84_one_partial",
    "C84_one_refuted",
    "C84_external_refuted"
   ],
   "note": "Spin 1/2 is right in every direction, spin 1 along z; the transverse factor of spin 1 is sqrt(3/8) where 3/sqrt(8) is needed, spin 3/2 has 4 states but one polarisation, and FCN_extPol reads beyond the parameters (refuted)."
  },
  {
   "property": "C85",
   "status": "partial",
   "theorems": [
    "C85_density",
    "C85_norm",
    "C85_fractions",
    "C85_normalised_partial",
    "C85_normalised_refuted",
    "C85_fractions_refuted"
   ],
   "note": "Density, norm() and the fractions after prepare() are right for every history. The density is not normalised: prepare() uses the norm of the coherent sum (C85_normalised_refuted), proved is the ratio; fit fractions use stale integrals when a parameter of an amplitude changed since prepare() (C85_fractions_refuted)."
  },
  {
   "property": "C86",
   "status": "partial",
   "theorems": [
    "C86_likelihood",
    "C86_simultaneous",
    "C86_constrained_partial",
    "C86_lasso_refuted",
    "C86_width_refuted",
    "C86_width_partial",
    "C86_interference_refuted",
    "C86_reported_refuted"
   ],
   "note": "Likelihoods, simultaneous fits and Gaussian constraints are right. LASSO and PartialWidthConstraint have the wrong sign (C86_lasso_refuted, C86_width_refuted), the latter also counts only half of the interference (C86_width_partial, C86_interference_refuted), and the reported value leaves out the constraints (C86_reported_refuted). Exact arithmetic."
  },
  {
   "property": "C87",
   "status": "partial",
   "theorems": [
    "C87_fit",
    "C87_run_minos_partial",
    "C87_run_minos_refuted",
    "C87_minos",
    "C87_scan",
    "C87_scan_ends",
    "C87_scan_refuted",
    "C87_gradient"
   ],
   "note": "doFit, minos(), scan and gradientTest restore what they should. With Minimiser::RunMinos the parameters stay at the last point that was tried (C87_run_minos_refuted; C87_run_minos_partial says what holds); a scan with a step that is not positive never ends."
  },
  {
   "property": "C88",
   "status": "partial",
   "theorems": [
    "C88_indices",
    "C88_orderings",
    "C88_value",
    "C88_distinct",
    "C88_bosons",
    "C88_fermions",
    "C88_incoherent",
    "C88_again",
    "C88_indices_left_refuted",
    "C88_three_fermions_refuted",
    "C88_polarisations_refuted",
    "C88_states"
   ],
   "note": "Proved for bosons, and for fermions when there are no three of a kind (C88_fermions); with three the signs of cyclic exchanges are wrong (C88_three_fermions_refuted). Polarisations are not exchanged with the momenta (C88_polarisations_refuted), and the indices are left as in the last arrangement (C88_indices_left_refuted). The tree is given by its stable particles and arbitrary functions of their momenta and polarisations."
  },
  {
   "property": "C89",
   "status": "partial",
   "theorems": [
    "C89_amplitudes",
    "C89_isotropic",
    "C89_waves",
    "C89_least_spin",
    "C89_impossible_refuted",
    "C89_axis_refuted",
    "C89_higher_spin_refuted",
    "C89_keys_partial",
    "C89_keys_refuted"
   ],
   "note": "Exact arithmetic. Boosts and rotations between frames (C73), the overlap of a stable particle with its laboratory polarisation, and user-defined helicity couplings are inputs. An L that cannot be reached, a decay along the axis, and a stable particle with a spin above one give no number; keys of frames are shared when there are ten particles or more."
  },
  {
   "property": "C90",
   "status": "partial",
   "theorems": [
    "C90_value",
    "C90_zero",
    "C90_order",
    "C90_scale",
    "C90_empty_bin_refuted",
    "C90_outside_refuted"
   ],
   "note": "Exact arithmetic; the bin of an event is an input (C37). A bin without events makes the value not a number; an event without a bin is undefined behaviour."
  },
  {
   "property": "C91",
   "status": "partial",
   "theorems": [
    "C91_places",
    "C91_event",
    "C91_at_rest_refuted",
    "C91_shared_place_refuted"
   ],
   "note": "Proved for momenta in which no decaying particle is exactly at rest in the frame of its mother; refuted for one at rest (the direction of the boost is 0/0) and for decays with more particles of a name than the event type (two particles share a place). That the momenta of each step add up and have their masses is C46. The PhaseSpace made for a stable particle has no masses and m_mass[0] is never set; nothing reads it."
  },
  {
   "property": "C92",
   "status": "partial",
   "theorems": [
    "C92_average",
    "C92_knots",
    "C92_unit",
    "C92_scale",
    "C92_half_integer_refuted",
    "C92_knots_999_refuted",
    "C92_graph_refuted",
    "C92_running_mass_refuted"
   ],
   "note": "Proved for heads of integer spin, at least two knots and a width at the mass that is not 0. Refuted: half-integer heads (every knot 0/0), 999 knots (step not set), widthGraph with limits (starts elsewhere), runningMass (constant). Partial widths are arbitrary functions here; the integral is C93."
  },
  {
   "property": "C93",
   "status": "partial",
   "theorems": [
    "C93_event",
    "C93_coordinates",
    "C93_all_reached",
    "C93_jacobian",
    "C93_integrand",
    "C93_other_mass_refuted"
   ],
   "note": "Proved for open decays in which A and B are not both massless (then the mass of AB is never 0); the second coordinate is given back inside, where A and C have momenta. Refuted for integrateDP with a mass other than that of setMother. The entries that setEvent does not write are taken to be zero. makePlot and makeBoundaryGraph are not modelled; that the numerical rule is exact for low degrees is C74."
  },
  {
   "property": "C94",
   "status": "partial",
   "theorems": [
    "C94_vectors",
    "C94_helicity_vectors",
    "C94_spinors",
    "C94_helicity_spinors",
    "C94_conjugate",
    "C94_basis",
    "C94_photon",
    "C94_states",
    "C94_no_state",
    "C94_backwards_refuted",
    "C94_backwards_vector_refuted",
    "C94_near_axis_refuted",
    "C94_invalid_refuted",
    "C94_tensor_refuted",
    "C94_off_shell_refuted",
    "C94_antiparticle_refuted"
   ],
   "note": "Proved for momenta on the mass shell; in the Weyl basis away from the negative third axis (spinors) and outside the 1 MeV tube around the axis, or exactly on it (vectors). Refuted: spinors along the negative axis do not solve the Dirac equation, vectors there carry the opposite helicity, vectors close to the axis are not normalised, invalid states are accepted, spin 2 has no states, states of off-shell particles are not transverse, labels of antiparticles mean the opposite spin."
  },
  {
   "property": "C95",
   "status": "partial",
   "theorems": [
    "C95_exact",
    "C95_flags",
    "C95_symmetric",
    "C95_channel",
    "C95_mismatch_refuted",
    "C95_shape_refuted"
   ],
   "note": "proved for the comparison as it is; refuted: different daughters give a flag among others and not None alone, and line shapes, vertices and spin configurations are not compared, so that the K-matrix can take one channel for another."
  },
  {
   "property": "C96",
   "status": "partial",
   "theorems": [
    "C96_clone",
    "C96_independent",
    "C96_expand",
    "C96_copy_refuted",
    "C96_descriptor_refuted",
    "C96_shared_refuted"
   ],
   "note": "proved for clone and for expand on decays none of whose particles is shared; refuted: a copy shares its daughters, the descriptor is stale after expand, and two particles expanded with one decay share its products."
  },
  {
   "property": "C97",
   "status": "partial",
   "theorems": [
    "C97_quasi",
    "C97_index_refuted",
    "C97_only_refuted"
   ],
   "note": "proved for the structure; refuted: the final state particles lose their indices, and a quasi-stable particle that is an only daughter is left out."
  },
  {
   "property": "C98",
   "status": "partial",
   "theorems": [
    "C98_inversion",
    "C98_term",
    "C98_AMP",
    "C98_spin3_refuted",
    "C98_half_refuted",
    "C98_bgspin0_refuted",
    "C98_inco_refuted",
    "C98_scalar_refuted"
   ],
   "note": "Full for trees of the modelled vertices (regular: no three-body decay of spin 3 or half-integer spin, scalars in V_TS_D without sign) and plain terms; the excluded cases are refuted with witnesses."
  },
  {
   "property": "C99",
   "status": "partial",
   "theorems": [
    "C99_kept",
    "C99_value",
    "C99_coupling",
    "C99_again",
    "C99_unnamed_refuted",
    "C99_twice_refuted",
    "C99_prefix_refuted",
    "C99_complex_refuted",
    "C99_sign_refuted"
   ],
   "note": "Full; the refutations are parameters that are not couplings, prefixed couplings and couplings given by an expression."
  },
  {
   "property": "C100",
   "status": "partial",
   "theorems": [
    "C100_evaluator",
    "C100_components",
    "C100_sum",
    "C100_scale_refuted",
    "C100_name_refuted"
   ],
   "note": "Full for distinct names; components are not scaled by weight/norm and equal names read beyond the storage (refuted)."
  },
  {
   "property": "C101",
   "status": "partial",
   "theorems": [
    "C101_contents",
    "C101_components",
    "C101_sorted",
    "C101_stack",
    "C101_order",
    "C101_binFunctor_partial",
    "C101_binFunctor_refuted",
    "C101_autowrite_refuted",
    "C101_range_refuted"
   ],
   "note": "Contents, components, stack and option order are proved for all inputs; refuted: binFunctor puts values up to one bin below the range into bin 0, AutoWrite(false) writes, and the normalisation to events counts only those in the range."
  },
  {
   "property": "C102",
   "status": "partial",
   "theorems": [
    "C102_conversion",
    "C102_loading_partial",
    "C102_loading_refuted",
    "C102_loop_partial",
    "C102_loop_refuted",
    "C102_transform_partial",
    "C102_sums_loaded",
    "C102_sums_converted",
    "C102_sums_converted_partial",
    "C102_sums_refuted",
    "C102_files_refuted"
   ],
   "note": "Conversion and random access are proved for all lists, loops and transform when the last block is not full, likelihood and averages for lists that are read and (exactly, with the repeated last event) for converted ones; refuted: the lanes behind the last event of a converted list carry its weight and count in the likelihood, a loop over a list that fills its last block reads behind the storage, reading fewer events than a block holds is undefined, and only the last of several files is kept."
  },
  {
   "property": "C103",
   "status": "partial",
   "theorems": [
    "C103_combinations",
    "C103_projections",
    "C103_names_partial",
    "C103_names_refuted",
    "C103_count",
    "C103_equal",
    "C103_equal_refuted",
    "C103_conjugate",
    "C103_conjugate_refuted",
    "C103_construct_partial",
    "C103_construct_refuted"
   ],
   "note": "Exact reals; the table of particles is a function from names to mass and name of the antiparticle. Not true, and refuted: that the names of the projections are unique (beyond ten particles \"s012\" is used twice), that equal event types have events of the same size (time dependence is not compared), that conjugation keeps the extensions, that an unknown mother or an empty list is reported by an exception."
  },
  {
   "property": "C104",
   "status": "partial",
   "theorems": [
    "C104_indices",
    "C104_list",
    "C104_sum_partial",
    "C104_single_refuted",
    "C104_prefix_refuted",
    "C104_name_refuted",
    "C104_component_partial",
    "C104_component_refuted"
   ],
   "note": "Exact reals; errors are those of the propagator (C59) as an argument; printing left out. Not true, and refuted: that a single decay is listed (nothing is), that only decays of the prefix of the sum interfere (without prefix all decays of the mother do, one even with itself), that a particle's amplitudes are found by its name (Delta(1232)+ finds those of Delta(1232)++), that constraints on unknown components are refused (index 999)."
  },
  {
   "property": "C105",
   "status": "partial",
   "theorems": [
    "C105_read",
    "C105_four",
    "C105_three",
    "C105_entry_list_partial",
    "C105_filter_partial",
    "C105_write_read",
    "C105_filter_refuted",
    "C105_filter_and_list_refuted",
    "C105_entry_list_refuted",
    "C105_time_refuted",
    "C105_units_refuted",
    "C105_weight_refuted",
    "C105_twice_refuted"
   ],
   "note": "Reading and writing are proved for all trees with the columns asked for. Refuted: a filter no entry passes reads all entries; a filter with an entry list is added to it; the reader looks past the end of an entry list; branches for all values of time-dependent events use addresses outside the event; the decay time is scaled with the energies; weights are lost by default; a column read to two places is not initialised."
  },
  {
   "property": "C106",
   "status": "partial",
   "theorems": [
    "C106_poly",
    "C106_polyNR_partial",
    "C106_polyNR_refuted",
    "C106_gaussian",
    "C106_eta_partial",
    "C106_eta_mass_refuted",
    "C106_eta_negative_refuted",
    "C106_bugg_unitarity",
    "C106_bugg_pole",
    "C106_bugg_threshold",
    "C106_bugg_four_pions"
   ],
   "note": "Poly, Gaussian and Bugg as stated. EtaDalitz: for the nominal mass and masses as light as those of the pions; otherwise refuted twice (another mass of the three particles; the distribution negative, where the shape is 1). PolyNR is the polynomial, not its root as documented (refuted)."
  },
  {
   "property": "C107",
   "status": "partial",
   "theorems": [
    "C107_product",
    "C107_two_body",
    "C107_eta",
    "C107_descriptor",
    "C107_defined",
    "C107_register",
    "C107_default_modifier_refuted",
    "C107_unknown_refuted",
    "C107_single_refuted"
   ],
   "note": "C107_product, C107_two_body, C107_eta, C107_descriptor, C107_defined, C107_register. Refuted: with a default modifier a three-body decay loses the fixed width (C107_default_modifier_refuted); EtaDalitz with an unknown modifier uses a null pointer (C107_unknown_refuted); a single daughter with another shape reads a second daughter (C107_single_refuted)."
  },
  {
   "property": "C108",
   "status": "partial",
   "theorems": [
    "C108_cache_partial",
    "C108_new_file",
    "C108_other_files",
    "C108_file_names",
    "C108_one_file",
    "C108_not_null",
    "C108_incomplete",
    "C108_temporary",
    "C108_stale_refuted",
    "C108_force_refuted",
    "C108_failure_refuted",
    "C108_collision_refuted",
    "C108_names_refuted",
    "C108_incomplete_refuted"
   ],
   "note": "C108_cache_partial (missing: expressions with equal hash but other code, see the refutations), C108_new_file, C108_other_files, C108_file_names, C108_one_file, C108_not_null, C108_incomplete, C108_temporary. Refuted: stale objects after the code has changed, also with ForceRebuild in one process, or after a failure of the compiler; a function that a cached file lacks stays null in the process that writes the file again; two amplitudes with equal hash give an exception; two names with the same function name cannot be in one file."
  },
  {
   "property": "C109",
   "status": "partial",
   "theorems": [
    "C109_gaussian",
    "C109_pdg",
    "C109_find",
    "C109_width",
    "C109_lasso",
    "C109_parameter",
    "C109_missing",
    "C109_words_refuted",
    "C109_factory_refuted",
    "C109_pdg_name_refuted"
   ],
   "note": "C109_gaussian, C109_pdg, C109_find, C109_width, C109_lasso, C109_parameter, C109_missing. Refuted: texts with other words leave mean and width uninitialised (C109_words_refuted); the factory makes terms without an amplitude (C109_factory_refuted); PDG ignores what follows a second underscore (C109_pdg_name_refuted)."
  },
  {
   "property": "C110",
   "status": "partial",
   "theorems": [
    "C110_iterate",
    "C110_empty",
    "C110_small",
    "C110_equal_partial",
    "C110_uneven_refuted",
    "C110_again_refuted",
    "C110_const_refuted",
    "C110_equal_refuted"
   ],
   "note": "False for blocks of different sizes (elements left out), for a second loop over the same container (starts with the last block), for constant iterators (operator precedence: the first block is given again) and for equality of small vectors of different sizes (trailing zeros)."
  },
  {
   "property": "C111",
   "status": "partial",
   "theorems": [
    "C111_vector",
    "C111_unitary",
    "C111_complete",
    "C111_photon",
    "C111_spinor",
    "C111_complete_spinor",
    "C111_own",
    "C111_axis",
    "C111_couplings",
    "C111_missing_refuted"
   ],
   "note": "The frame is any Lorentz transformation with an inverse that brings the particle to rest (or along the axis); that the code's sequences are such is the subject of the area Transform. False for couplings that are not given: the default is one number, and two more are read behind it."
  }
 ]
}