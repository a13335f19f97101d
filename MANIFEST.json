{
 "claims": [
  {
   "property": "C01",
   "status": "proved",
   "theorems": [
    "C01_permutation_sign",
    "C01_permutation_sign_is_group_sign"
   ],
   "note": "Arbitrary strict total order; inversion parity and group-theoretic sign."
  },
  {
   "property": "C02",
   "status": "partial",
   "theorems": [
    "C02_permutation_never_returns_on_duplicates",
    "C02_permutation_terminates_refuted"
   ],
   "note": "REFUTED: the routine loops forever on every sequence with two equal elements (it exchanges when !(a<b)). Termination holds exactly for distinct elements (C01)."
  },
  {
   "property": "C03",
   "status": "proved",
   "theorems": [
    "C03_comb_sort",
    "C03_comb_sort_empty_refuted"
   ],
   "note": "Every non-empty sequence. The empty sequence is undefined behaviour (iterator advanced past the end)."
  },
  {
   "property": "C04",
   "status": "proved",
   "theorems": [
    "C04_clustering"
   ],
   "note": "Components, numbering by first vertex and member lists, for every sequence of in-range connect calls."
  },
  {
   "property": "C05",
   "status": "partial",
   "theorems": [
    "C05_groups_decoupled_refuted",
    "C05_groups_decoupled_partial",
    "C05_connectivity_lookup_refuted"
   ],
   "note": "REFUTED: greedy grouping is not transitive; the connectivity matrix is also read with permuted arguments. Holds when connectivity is transitive."
  },
  {
   "property": "C06",
   "status": "proved",
   "theorems": [
    "C06_constructors",
    "C06_histories",
    "C06_copy",
    "C06_sum",
    "C06_product",
    "C06_block_copy",
    "C06_determinant"
   ],
   "note": "Any field, any history of calls inside the declared ranges, any content of fresh memory."
  },
  {
   "property": "C07",
   "status": "proved",
   "theorems": [
    "C07_safe_determinant",
    "C07_safe_inverse",
    "C07_scaled_elements_at_most_one",
    "C07_empty_inverse_refuted"
   ],
   "note": "Any numeric field (real or complex), exact arithmetic. The empty inverse, excluded by the statement, is undefined behaviour."
  },
  {
   "property": "C08",
   "status": "proved",
   "theorems": [
    "C08_append_det_ratio",
    "C08_append_inverse"
   ],
   "note": "Any field, any N >= 0 and M (M >= 1 for the inverse; M = 0 is undefined behaviour in the code)."
  },
  {
   "property": "C09",
   "status": "proved",
   "theorems": [
    "C09_removal_det_ratio",
    "C09_removal_last_det_ratio",
    "C09_unordered_lists_refuted"
   ],
   "note": "Strictly increasing lists. For lists that are not increasing the sign is wrong (refuted with a witness)."
  },
  {
   "property": "C10",
   "status": "proved",
   "theorems": [
    "C10_removal_inverse",
    "C10_exchanges_keep_the_others",
    "C10_removal_last_inverse"
   ],
   "note": "Strictly increasing lists; the remaining order is that of the exchanges."
  },
  {
   "property": "C11",
   "status": "proved",
   "theorems": [
    "C11_replace",
    "C11_singular_block_refuted"
   ],
   "note": "Under invertibility of the unchanged block, which the code inverts. Without it the code returns 0 where the true ratio is 1 (refuted with a witness)."
  },
  {
   "property": "C12",
   "status": "proved",
   "theorems": [
    "C12_last_row",
    "C12_last_col"
   ],
   "note": "Any field and size >= 1."
  },
  {
   "property": "C13",
   "status": "partial",
   "theorems": [
    "C13_ratio_partial",
    "C13_nonzero_ratio_partial",
    "C13_ratio_refuted"
   ],
   "note": "REFUTED: when operator pairs are both removed and added and the block of the operators that stay is singular, try_remove_add returns 0 although the true ratio is not zero. Proved in every other case, and every non-zero ratio is right."
  },
  {
   "property": "C14",
   "status": "proved",
   "theorems": [
    "C14_history_consistent",
    "C14_cycles_succeed",
    "C14_new",
    "C14_construct",
    "C14_rebuild"
   ],
   "note": "For all fields, time orders, operator types, Green functions and histories; a request is accepted only with non-zero ratio."
  },
  {
   "property": "C15",
   "status": "proved",
   "theorems": [
    "C15_reject_no_effect"
   ],
   "note": "Operators, determinant and inverse between any two operators."
  },
  {
   "property": "C16",
   "status": "partial",
   "theorems": [
    "C16_impossible_add_partial",
    "C16_impossible_removal_refuted",
    "C16_impossible_mixed_refuted"
   ],
   "note": "REFUTED: rejecting an impossible removal re-inserts operators of an earlier removal; rejecting an impossible remove-and-add reads unassigned members. Proved for impossible additions."
  },
  {
   "property": "C17",
   "status": "partial",
   "theorems": [
    "C17_busy_try_partial",
    "C17_call_once_partial",
    "C17_reject_once_partial",
    "C17_no_try_refuted",
    "C17_empty_request_refuted",
    "C17_refused_try_refuted",
    "C17_late_perform_refuted"
   ],
   "note": "REFUTED: empty requests bypass the check, a refused try destroys the pending update, perform after reject of a remove-and-add replaces the inverse before throwing, perform before any try is undefined. Proved: non-empty requests are refused while pending, perform/reject accepted once."
  },
  {
   "property": "C18",
   "status": "proved",
   "theorems": [
    "C18_determinant",
    "C18_construction",
    "C18_rebuild"
   ],
   "note": "Along every history from the empty object (accepting only non-zero ratios), after construction from a list and after rebuilding; the inverse matrix is the inverse of the full matrix too. For all fields, sector structures and sector-diagonal Green functions."
  },
  {
   "property": "C19",
   "status": "proved",
   "theorems": [
    "C19_signs"
   ],
   "note": "For all histories of insertions at free times and removals of present operators."
  },
  {
   "property": "C20",
   "status": "partial",
   "theorems": [
    "C20_reject_partial",
    "C20_reject_collision_refuted"
   ],
   "note": "REFUTED: after try_update with an operator at an occupied time (answered 0) reject_update erases the operator that was there before from the operator sets. Proved for requests at free times."
  },
  {
   "property": "C21",
   "status": "proved",
   "theorems": [
    "C21_append_det_ratio",
    "C21_append_inverse",
    "C21_append_inverse_blocks"
   ],
   "note": "Any field, any N and M (M >= 1 for up2, which asserts it)."
  },
  {
   "property": "C22",
   "status": "proved",
   "theorems": [
    "C22_removal_det_ratio",
    "C22_removal_inverse"
   ],
   "note": "Any list of distinct in-range positions, in any order; the order left is that of the reported exchanges."
  },
  {
   "property": "C23",
   "status": "proved",
   "theorems": [
    "C23_replace_row_ratio",
    "C23_replace_rows_cols_ratio",
    "C23_replace_row_col_safe_ratio",
    "C23_replace_row_entries",
    "C23_replace_row_inverse_refuted"
   ],
   "note": "Ratios for every size. The one-row inverse update writes the right entries but has no return statement, so calling it is undefined behaviour (refuted separately)."
  },
  {
   "property": "C24",
   "status": "partial",
   "theorems": [
    "C24_inverse_replace_rows_cols_refuted",
    "C24_shapes_undefined",
    "C24_nothing_kept_partial"
   ],
   "note": "REFUTED: line 808 assigns the upper left block to the lower left one. Correct only if no row is kept; shapes do not match unless as many rows are kept as replaced."
  },
  {
   "property": "C25",
   "status": "proved",
   "theorems": [
    "C25_diagonal_ratio",
    "C25_diagonal_inverse",
    "C25_ratio_only_keeps_the_inverse"
   ],
   "note": "Ratio for distinct positions and any shifts; inverse for strictly increasing positions and non-zero shifts (the code divides by the shifts)."
  },
  {
   "property": "C26",
   "status": "partial",
   "theorems": [
    "C26_spin_flip_ratio_partial",
    "C26_mixed_ratio_partial",
    "C26_accept_partial",
    "C26_replace_refuted",
    "C26_mixed_accept_refuted"
   ],
   "note": "REFUTED: changing an auxiliary field twice in one session throws 'Not implemented'; accepting a request that on one flavor switches vertices on and off is undefined (C24). Ratio and acceptance proved for every request that per flavor only switches rows on or only off (all requests of the update manager); the ratio also for mixed requests whose switched-back configuration has a weight. Missing: mixed requests with a singular intermediate configuration, and vertices of which one flip moves one alpha back and another away."
  },
  {
   "property": "C27",
   "status": "proved",
   "theorems": [
    "C27_stored_inverse",
    "C27_close",
    "C27_open"
   ],
   "note": "Every history of simple requests; any field, any Green function."
  },
  {
   "property": "C28",
   "status": "proved",
   "theorems": [
    "C28_reject",
    "C28_reject_exact"
   ],
   "note": "For every valid request that could be tried (a try that throws is no rejection). A rejected request that on one flavor switches rows on and off leaves the auxiliary matrix with its rows, columns and labels in another common order, which no later result depends on; all other requests leave it entry by entry as it was (C28_reject_exact)."
  },
  {
   "property": "C29",
   "status": "proved",
   "theorems": [
    "C29_compute_M",
    "C29_from_scratch"
   ],
   "note": "Every reachable state."
  },
  {
   "property": "C30",
   "status": "partial",
   "theorems": [
    "C30_recompute_in_session",
    "C30_phase_refuted"
   ],
   "note": "REFUTED: apart from recompute_matrix the phases are only asserted, and assertions are compiled out: finalize_update outside a session returns, perform_spin_flip without a request changes the vertices. Proved: recompute_matrix inside a session throws."
  },
  {
   "property": "C31",
   "status": "partial",
   "theorems": [
    "C31_finalize",
    "C31_finalize_refuted"
   ],
   "note": "REFUTED: finalize_update throws when a non-interacting vertex has no operator on some flavor. C31_finalize says exactly when it succeeds."
  },
  {
   "property": "C32",
   "status": "proved",
   "theorems": [
    "C32_proposal",
    "C32_insertion",
    "C32_removal",
    "C32_removal_positions",
    "C32_factors",
    "C32_balance",
    "C32_spin_flip",
    "C32_spin_flip_balance",
    "C32_shift",
    "C32_shift_balance"
   ],
   "note": "Proved for every reachable object: each step is accepted exactly when the random number is below the textbook rate, and these rates satisfy detailed balance with the density |W| us^n / prod(states). The same for state changes and shifts."
  },
  {
   "property": "C33",
   "status": "proved",
   "theorems": [
    "C33_order_limit",
    "C33_in_session"
   ],
   "note": "For every run that ends normally, any parameters and random numbers."
  },
  {
   "property": "C34",
   "status": "partial",
   "theorems": [
    "C34_lost_refuted",
    "C34_no_effect"
   ],
   "note": "REFUTED: global_updates takes the shared pointer by value and swaps its own copy, so an accepted global update never reaches the sampler."
  },
  {
   "property": "C35",
   "status": "partial",
   "theorems": [
    "C35_not_permutation_refuted",
    "C35_permutations_partial",
    "C35_accepted_maps"
   ],
   "note": "REFUTED: a map that is not injective passes validation and no listed map undoes it. Proved: a file of permutations gives a list closed under inverses."
  },
  {
   "property": "C36",
   "status": "partial",
   "theorems": [
    "C36_accepted_uncounted_refuted",
    "C36_shift_never_counted",
    "C36_counters_partial",
    "C36_rates"
   ],
   "note": "REFUTED: an accepted move whose ratio is exactly 1 counts as rejected, and shift moves are never counted (0/0). Proved: attempts are counted exactly, and accepted counts the steps that change the weight."
  },
  {
   "property": "C37",
   "status": "proved",
   "theorems": [
    "C37_two_flavors",
    "C37_one_flavor",
    "C37_other_flavors",
    "C37_density_split"
   ],
   "note": "Any field, any number of sites; other flavor counts are shown to throw."
  },
  {
   "property": "C38",
   "status": "partial",
   "theorems": [
    "C38_reads_what_is_written",
    "C38_out_of_range",
    "C38_accepted_in_range",
    "C38_repeated_index_refuted",
    "C38_truncated_refuted",
    "C38_negative_refuted"
   ],
   "note": "REFUTED: the first column is ignored (a repeated index is accepted), a truncated file is accepted and reuses what was read before, a negative flavor wraps modulo 2^32. Proved: well-formed files are read exactly, out-of-range sites and flavors throw, and every accepted file yields terms in range."
  },
  {
   "property": "C39",
   "status": "partial",
   "theorems": [
    "C39_equal_times_refuted",
    "C39_push_back",
    "C39_distinct_numbers",
    "C39_remove_positions",
    "C39_count"
   ],
   "note": "REFUTED: push_back builds but does not throw its error for a second vertex at the same time. Proved: the numbers given to vertices are distinct along every history, and removal by position removes exactly those."
  },
  {
   "property": "C40",
   "status": "partial",
   "theorems": [
    "C40_round_trip_partial",
    "C40_precision_refuted"
   ],
   "note": "REFUTED: times are written with six digits. Proved: configurations whose times survive the printing are read back. The call of dump in finalize() is commented out."
  },
  {
   "property": "C41",
   "status": "proved",
   "theorems": [
    "C41_distinct",
    "C41_uniform",
    "C41_too_many",
    "C41_vertices"
   ],
   "note": "C41_too_many: the loop never ends when more elements are asked for than exist."
  },
  {
   "property": "C42",
   "status": "partial",
   "theorems": [
    "C42_segment",
    "C42_value",
    "C42_antiperiodic",
    "C42_antiperiodic_dt",
    "C42_equal_times",
    "C42_one_point_refuted"
   ],
   "note": "REFUTED for a table with one time point (accepted by read_itime_data, every evaluation reads out of range). Proved for n_tau >= 2: index in range and segment contains the time, sign per period, equal times by the small index. Exact rational arithmetic."
  },
  {
   "property": "C43",
   "status": "partial",
   "theorems": [
    "C43_representative_partial",
    "C43_returns_partial",
    "C43_negative_multiple_refuted",
    "C43_large_refuted"
   ],
   "note": "REFUTED: a negative multiple of beta comes back as beta; more than 2^31 periods is undefined. Proved for every other x."
  },
  {
   "property": "C44",
   "status": "proved",
   "theorems": [
    "C44_spline",
    "C44_linear",
    "C44_band_solver",
    "C44_coefficients"
   ],
   "note": "Any ordered field, any number of points from two on, every boundary condition. The band solver is proved for any numbers of bands, by strict diagonal dominance."
  },
  {
   "property": "C45",
   "status": "partial",
   "theorems": [
    "C45_left_second_refuted",
    "C45_derivatives_partial",
    "C45_left_second"
   ],
   "note": "REFUTED: left of the data deriv(2, x) is multiplied by x - x_0 (spline.h:435). Proved for every other order and place."
  },
  {
   "property": "C46",
   "status": "proved",
   "theorems": [
    "C46_scalar",
    "C46_vector",
    "C46_orthonormal",
    "C46_no_orders"
   ],
   "note": "Against Rodrigues' formula, in exact arithmetic. With no orders at all (n_legendre = 0) the constructor writes past an empty vector."
  },
  {
   "property": "C47",
   "status": "partial",
   "theorems": [
    "C47_refuted",
    "C47_exact_partial",
    "C47_Stau"
   ],
   "note": "REFUTED in binary64: beta = 1.7, the default 10000 bins and two times the generator can draw give bin 10000, one past the end. Proved in exact arithmetic, for the index and for the whole of compute_Stau."
  },
  {
   "property": "C48",
   "status": "proved",
   "theorems": [
    "C48_correlations"
   ],
   "note": "The real program, exact arithmetic, any number of sites, flavors and configurations. The reference is Wick's theorem in determinant form, so the values are pinned down as well as the layout."
  },
  {
   "property": "C49",
   "status": "partial",
   "theorems": [
    "C49_constructor_refuted",
    "C49_constructor",
    "C49_histogram",
    "C49_extremes",
    "C49_flatness",
    "C49_rates",
    "C49_simple",
    "C49_scalar",
    "C49_add_sample",
    "C49_flavors",
    "C49_rebin",
    "C49_rebin_range"
   ],
   "note": "REFUTED for the two-argument constructor of scalar_histogram, which swaps size and value of its vectors: the vectors are empty and the first sample writes past the end. Proved for histogram, simple_hist, rebin and the objects built by the other way."
  },
  {
   "property": "C50",
   "status": "proved",
   "theorems": [
    "C50_fraction",
    "C50_measurements"
   ],
   "note": "Exact arithmetic, step counter below 2^64, 20*measurement_period below 2^32 (see C65)."
  },
  {
   "property": "C51",
   "status": "partial",
   "theorems": [
    "C51_ratio_in_exchanged_order_refuted"
   ],
   "note": "REFUTED: the sign is that of the order-preserving minor (C09), not of the rearranged matrix the header describes."
  },
  {
   "property": "C52",
   "status": "partial",
   "theorems": [
    "C52_row_col_ratio",
    "C52_row_col2_ratio",
    "C52_row_col_inverse_regular",
    "C52_row_col_inverse_singular_partial",
    "C52_row_col_inverse_singular_refuted"
   ],
   "note": "REFUTED for a singular intermediate with non-zero new diagonal element: a term is missing in the upper left block. Ratio always right; inverse right for regular intermediates, and for singular ones with zero diagonal element."
  },
  {
   "property": "C53",
   "status": "proved",
   "theorems": [
    "C53_generate_indices",
    "C53_generate_indices_repeated",
    "C53_replace_rows_cols_entries",
    "C53_replace_respecting_order"
   ],
   "note": "Distinct in-range positions (increasing for the order-respecting variant). A repeated position makes generate_indices write out of range."
  },
  {
   "property": "C54",
   "status": "proved",
   "theorems": [
    "C54_lu_product",
    "C54_phase",
    "C54_lu_product_empty_refuted"
   ],
   "note": "For every factorisation Eigen may return. An empty matrix makes lu_product write to element 0 of an empty vector."
  },
  {
   "property": "C55",
   "status": "partial",
   "theorems": [
    "C16_impossible_add_partial",
    "C55_mixed_collision_partial",
    "C55_replace_collision_refuted"
   ],
   "note": "REFUTED for single-operator replacements, which never check; proved for additions and remove-and-add."
  },
  {
   "property": "C56",
   "status": "proved",
   "theorems": [
    "C56_accept",
    "C56_ratio"
   ],
   "note": "Exact arithmetic; all sector structures."
  },
  {
   "property": "C57",
   "status": "proved",
   "theorems": [
    "C57_running_sign"
   ],
   "note": "Every history of simple requests accepted with non-zero ratio; exact arithmetic."
  },
  {
   "property": "C58",
   "status": "proved",
   "theorems": [
    "C58_construct",
    "C58_recompute"
   ],
   "note": "Any field."
  },
  {
   "property": "C59",
   "status": "proved",
   "theorems": [
    "C59_ins_rem_ratio",
    "C59_spin_flip_ratio",
    "C59_shift_ratio"
   ],
   "note": "Termination is up to the supply of random numbers (Diverge when the list ends). The hypothesis that every vertex type has an operator on every flavor is that of C31."
  },
  {
   "property": "C60",
   "status": "proved",
   "theorems": [
    "C60_compute_weight",
    "C60_global_step"
   ],
   "note": ""
  },
  {
   "property": "C61",
   "status": "partial",
   "theorems": [
    "C61_linear_reuse_refuted",
    "C61_reuse_partial"
   ],
   "note": "REFUTED for linear interpolation: the last entry of m_b keeps the curvature of an earlier cubic spline and bends the right extrapolation. Proved for cubic interpolation, the only kind this program uses."
  },
  {
   "property": "C62",
   "status": "proved",
   "theorems": [
    "C62_order",
    "C62_table",
    "C62_hermitian",
    "C62_accepts"
   ],
   "note": "Exact arithmetic; the file is given by its parsed numbers. A failed extraction keeps the previous values, so the proof needs at least two times per pair."
  },
  {
   "property": "C63",
   "status": "partial",
   "theorems": [
    "C63_refuted",
    "C63_densities_partial"
   ],
   "note": "REFUTED: every entry of the density matrix is cut to its real part before multiplication (measurement.ipp:537-540); with a Hermitian imaginary hopping and no vertex the stored correlation is 1/4 instead of 0. Densities, and correlations between flavors, are proved to be built from the real parts."
  },
  {
   "property": "C64",
   "status": "partial",
   "theorems": [
    "C64_rounding_refuted",
    "C64_run_exact_partial"
   ],
   "note": "REFUTED in binary64: 35 requested steps done as 8+9+18 by three ranks sum to less than one in every order, and the run goes on. Proved in exact arithmetic for every schedule."
  },
  {
   "property": "C65",
   "status": "partial",
   "theorems": [
    "C65_wraparound_refuted",
    "C65_recompute_partial"
   ],
   "note": "REFUTED: 20*measurement_period wraps modulo 2^32; period 2^30 is accepted and divides by zero. Proved for periods below 2^32/20."
  },
  {
   "property": "C66",
   "status": "proved",
   "theorems": [
    "C66_Sl"
   ],
   "note": "Any numeric field, exact arithmetic, std::sqrt a parameter with sqrt(1) = 1."
  },
  {
   "property": "C67",
   "status": "proved",
   "theorems": [
    "C67_history",
    "C67_center"
   ],
   "note": "Exact arithmetic over any closed numeric field; times and shifts in [0, beta) as drawn by the program; std::sqrt and the spherical Bessel functions are parameters; the averages are ALPSCore's mean values."
  },
  {
   "property": "C68",
   "status": "proved",
   "theorems": [
    "C68_factors",
    "C68_partitioned_factors"
   ],
   "note": "Exact arithmetic; the LU factorisation and std::sort are arbitrary ones that meet their specification."
  },
  {
   "property": "C69",
   "status": "proved",
   "theorems": [
    "C69_orders"
   ],
   "note": "The values handed to the accumulators; the accumulators themselves are not modelled. The recorded Sign is su_sign, see C57."
  },
  {
   "property": "C70",
   "status": "proved",
   "theorems": [
    "C70_choice",
    "C70_insertion",
    "C70_removal",
    "C70_balance",
    "C70_proposal",
    "C70_rejection",
    "C70_density",
    "C70_times"
   ],
   "note": "Exact arithmetic; std::exp and the index drawn by boost's discrete_distribution are parameters. At the pinned commit the program does not reach these branches. A removal of one old and one new vertex of a session is a mixed request, see C26."
  },
  {
   "property": "C71",
   "status": "proved",
   "theorems": [
    "C71_valid_pairs",
    "C71_listed_pairs"
   ],
   "note": "A table without a first quantum number, quantum numbers of different lengths and an odd number of listed types are undefined behaviour in the model."
  },
  {
   "property": "C72",
   "status": "partial",
   "theorems": [
    "C72_same_type_refuted",
    "C72_same_type"
   ],
   "note": "REFUTED: a type paired with itself is accepted, and the insertion throws logic_error for every configuration, because pick_up_valid_vertex_pair2 finds no second position. Pairs of different types: C70."
  },
  {
   "property": "C73",
   "status": "proved",
   "theorems": [
    "C73_measurement",
    "C73_real"
   ],
   "note": "Exact arithmetic. C73_real: in the real program the values are the quotients themselves; with complex weights the program takes real parts (C63)."
  },
  {
   "property": "C74",
   "status": "proved",
   "theorems": [
    "C74_same_vertices"
   ],
   "note": "Exact arithmetic: in floating point the order of the rows changes the rounding."
  },
  {
   "property": "C75",
   "status": "proved",
   "theorems": [
    "C75_results"
   ],
   "note": "Exact arithmetic, real program (M_TYPE double), /SigmaG_tau for all pairs of sites; /SigmaG_legendre and /SigmaG_omega follow by C67. mean() of an accumulator is the arithmetic mean."
  },
  {
   "property": "C76",
   "status": "partial",
   "theorems": [
    "C76_quantum_numbers_partial",
    "C76_sites_refuted",
    "C76_unread_refuted"
   ],
   "note": "REFUTED: is_zero is called with (site, site, flavor) in place of (flavor, site, site): the outcome is undefined for every interaction when the numbers of flavors and sites differ, and the update manager calls it with a Green function that has not been read. Partial: with equal numbers the lists are the net numbers with respect to the groups it builds, and the groups are decoupled for the table as it is looked up. The call is not reached because n_multi_vertex_update is 1."
  },
  {
   "property": "C77",
   "status": "partial",
   "theorems": [
    "C77_selection_partial",
    "C77_pairs_partial",
    "C77_alpha_refuted",
    "C77_lookup_refuted"
   ],
   "note": "REFUTED: a part between two groups with alpha not zero has a diagonal entry and a non-zero weight with a non-zero quantum number; the exchanged arguments give wrong groups. Partial: holds for groups that are decoupled and parts between groups with alpha = 0."
  },
  {
   "property": "C78",
   "status": "proved",
   "theorems": [
    "C78_window",
    "C78_random_time"
   ],
   "note": "Exact arithmetic. The point 0 = beta is treated as the code does it: a time equal to 0 is inside only when the window starts at 0 or goes beyond beta."
  },
  {
   "property": "C79",
   "status": "partial",
   "theorems": [
    "C79_pick",
    "C79_count_refuted"
   ],
   "note": "REFUTED: count_valid_vertex_pair writes pos[] of a vector that was only reserved. pick_up_valid_vertex_pair is proved."
  },
  {
   "property": "C80",
   "status": "proved",
   "theorems": [
    "C80_pair",
    "C80_any"
   ],
   "note": "The random index is below the number of choices and the random time comes from the window (C78). A pair with a density type throws, as in the code."
  },
  {
   "property": "C81",
   "status": "partial",
   "theorems": [
    "C81_cutoff",
    "C81_flavors",
    "C81_stuck_refuted"
   ],
   "note": "REFUTED: the last sentence. A cutoff of at most two bins never changes whatever is recorded, because no bin centre lies in the first quarter. The rule for one histogram and for all flavors is proved for all inputs; exact arithmetic, division by a zero mean value follows IEEE signs."
  },
  {
   "property": "C82",
   "status": "proved",
   "theorems": [
    "C82_learning"
   ],
   "note": "Exact arithmetic. The function is not called at this commit (n_multi_vertex_update is 1)."
  },
  {
   "property": "C83",
   "status": "partial",
   "theorems": [
    "C83_restart_partial",
    "C83_beta_refuted"
   ],
   "note": "REFUTED: printing with six digits moves times; the time 1-2^-24 is printed as 1, which is beta. Proved: if the times survive printing, the new walker is a state of the same kind with the same vertices and sign, and every measurement records the same values. The call of dump is a comment at this commit; reading is reached by PREFIX_LOAD_CONFIG."
  },
  {
   "property": "C84",
   "status": "proved",
   "theorems": [
    "C84_translation",
    "C84_sign"
   ],
   "note": "Exact arithmetic, splines as in C42 on the grid of the table."
  },
  {
   "property": "C85",
   "status": "proved",
   "theorems": [
    "C85_successive",
    "C85_single"
   ],
   "note": "Exact arithmetic; the factor of one step is kept in a double at this commit, so the first function is for real matrices. Both functions are not called at this commit."
  },
  {
   "property": "C86",
   "status": "partial",
   "theorems": [
    "C86_checks",
    "C86_green",
    "C86_walker",
    "C86_resumed",
    "C86_onsite",
    "C86_measured",
    "C86_refuses",
    "C86_beta_refuted",
    "C86_alpha_refuted",
    "C86_weight_refuted"
   ],
   "note": "REFUTED: the last part. A negative beta is accepted if the table has the same, a term with alpha = 1 although alpha/(alpha-1) does not exist, and a configuration of weight zero. The other parts are proved for all inputs. Exact arithmetic; the numbers of sites and spins are not negative; the constructor of VertexUpdateManager, histograms and accumulators are not part of this model."
  },
  {
   "property": "C87",
   "status": "partial",
   "theorems": [
    "C87_passes",
    "C87_finds",
    "C87_gamma",
    "C87_inverse_ignored",
    "C87_inverse_refuted"
   ],
   "note": "REFUTED: the last part. A wrong stored inverse passes: it is recomputed and replaced, a deviation is only printed (C87_inverse_refuted; C87_inverse_ignored for every object whose flavors all have rows). The other parts are proved in full: C87_passes for every reachable object, C87_finds and C87_gamma for arbitrary objects. In exact arithmetic, the tolerance is any positive number."
  },
  {
   "property": "C88",
   "status": "partial",
   "theorems": [
    "C88_counts",
    "C88_wraps",
    "C88_counts_refuted",
    "C88_endless",
    "C88_ends_refuted"
   ],
   "note": "REFUTED: for k >= N+2 the unsigned difference wraps and the result is 1 instead of 0 (C88_wraps, for all such arguments); for the largest N the loop never ends (C88_endless). Proved for k <= N+1 and N+1 representable (C88_counts). The function is not called in the program. Exact product."
  },
  {
   "property": "C89",
   "status": "partial",
   "theorems": [
    "C89_accepts",
    "C89_types",
    "C89_shift_empty",
    "C89_multi_refuted",
    "C89_shift_refuted"
   ],
   "note": "REFUTED: update.n_multi_vertex_update has no effect: moves always have one vertex, and as many rates as it asks for are refused unless it is one (C89_multi_refuted, C89_accepts); no vertex type is announced for shifts although they are made (C89_shift_empty). The choice of the types is proved (C89_types)."
  },
  {
   "property": "C90",
   "status": "proved",
   "theorems": [
    "C90_random",
    "C90_runs",
    "C90_onsite",
    "C90_completes",
    "C90_onsite_completes"
   ],
   "note": "Exact arithmetic. A run that needs more random numbers than the given sequence holds is 'Diverge' (the selection by rejection may draw any number of them). C90_runs is for any interaction with usable types that have an operator on every flavor; C90_onsite composes it with the model of the start and of the measurements. C90_completes, C90_onsite_completes: with suitable further random numbers every run ends, if the generator can give every index (every rational of [0,1) in the second); that a run ends with probability one is not stated. Two-vertex moves are not reachable at this commit (C89)."
  },
  {
   "property": "C91",
   "status": "proved",
   "theorems": [
    "C91_times",
    "C91_operators"
   ],
   "note": "Exact arithmetic (no NaN among the times). operator< is not called by the program at this commit."
  },
  {
   "property": "C92",
   "status": "proved",
   "theorems": [
    "C92_identity"
   ],
   "note": "Exact arithmetic, real matrices. The function is not called at this commit."
  },
  {
   "property": "C93",
   "status": "proved",
   "theorems": [
    "C93_spread"
   ],
   "note": "Exact arithmetic over any ordered field with a positive number in place of pi; the centre (atan2) is a parameter. The only call is in a comment at this commit."
  },
  {
   "property": "C94",
   "status": "partial",
   "theorems": [
    "C94_rdiff",
    "C94_rdiff_refuted"
   ],
   "note": "REFUTED: the return type is bool, so the quotient is converted to 0 or 1: my_rdiff(1,2) is 1 instead of 1/2. C94_rdiff says for all arguments what is returned. The function is not called at this commit."
  },
  {
   "property": "C95",
   "status": "proved",
   "theorems": [
    "C95_save",
    "C95_all"
   ],
   "note": "The archive is the list of what was written; complete_path is a parameter. Failures of the file system are not modelled."
  },
  {
   "property": "C96",
   "status": "proved",
   "theorems": [
    "C96_evaluate",
    "C96_history"
   ],
   "note": "Exact arithmetic; square roots and Bessel functions are parameters. The call and the recording are comments at this commit, the two functions are compiled."
  },
  {
   "property": "C97",
   "status": "proved",
   "theorems": [
    "C97_passes",
    "C97_finds",
    "C97_weight"
   ],
   "note": "Exact arithmetic; the tolerance 1E-5 is a parameter and a failing assertion is the result false. compute_f_prod and determinant are not called at this commit."
  }
 ]
}
