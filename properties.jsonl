{"id": "C01", "title": "Permutation sign of a sequence of distinct times", "statement": "For a sequence of pairwise distinct values the permutation routine terminates and returns +1 if the number of out-of-order pairs is even and -1 if it is odd; it agrees with the determinant-style sign of the permutation that sorts the sequence.", "quantifier": "every finite sequence of pairwise distinct elements of any totally ordered type", "why_tests_cant": "The sign multiplies every Monte Carlo weight; a wrong parity at some length or arrangement is a silent bias, and there are n! arrangements at every length n.", "anchors": ["include/alps/fastupdate/detail/util.hpp: permutation"]}
{"id": "C02", "title": "Permutation routine and repeated values", "statement": "The permutation routine terminates for every finite input sequence.", "quantifier": "every finite sequence, including those with equal elements", "why_tests_cant": "Non-termination cannot be observed by a finite test run.", "anchors": ["include/alps/fastupdate/detail/util.hpp: permutation"]}
{"id": "C03", "title": "Comb sort sorts and reports the parity of the exchanges", "statement": "For every non-empty sequence comb_sort terminates, leaves the sequence sorted with the same elements, and returns the sign of the rearrangement it applied, which for distinct elements is the parity of the number of inversions of the input.", "quantifier": "every non-empty finite sequence over a strict weak order", "why_tests_cant": "The gap sequence depends on the length; termination and sortedness must hold for all lengths and arrangements.", "anchors": ["include/alps/fastupdate/detail/util.hpp: comb_sort"]}
{"id": "C04", "title": "Clustering labels are connected components", "statement": "After any sequence of connect calls and a final labelling, two vertices carry the same label if and only if they are linked by a chain of connect calls; labels are 0..k-1 in the order of the first vertex of each cluster, and the member lists are an ordered partition of the vertices.", "quantifier": "every number of vertices and every sequence of connect calls", "why_tests_cant": "Union-find aliasing bugs only show for particular orders of connect calls, of which there are unboundedly many.", "anchors": ["include/alps/fastupdate/detail/clustering.hpp: connect_vertices, finalize_labeling, get_true_label"]}
{"id": "C05", "title": "Sector construction separates decoupled flavors", "statement": "Two flavors that are connected through a chain of non-zero hybridisation/Green-function entries end up in the same group, and flavors in different groups have no non-zero entry between them.", "quantifier": "every number of sites and every symmetric pattern of non-zero entries", "why_tests_cant": "The number of connectivity patterns is exponential in the number of sites.", "anchors": ["src/green_function.h: make_groups", "src/green_function.h: make_quantum_numbers"]}
{"id": "C06", "title": "Resizable matrix behaves as a plain matrix", "statement": "After any sequence of construction, element writes, row/column swaps, conservative and destructive resizes, removal of the last row and column and inversion, the visible size and all visible elements that were ever written are those of a plain matrix undergoing the same operations; the spare capacity behind the visible block is never observable.", "quantifier": "every sequence of operations within the declared index ranges", "why_tests_cant": "Whether stale values in the spare capacity leak depends on the history of growth and shrinkage, not on a single call.", "anchors": ["include/alps/fastupdate/resizable_matrix.hpp: ResizableMatrix"]}
{"id": "C07", "title": "Scaled determinant and inverse", "statement": "The overflow-safe determinant of a square matrix equals its determinant and the overflow-safe inverse of an invertible non-empty matrix equals its inverse.", "quantifier": "every square matrix over an ordered field", "why_tests_cant": "Scaling by the largest element must be undone exactly for every size and every maximum; tests sample a few sizes.", "anchors": ["include/alps/fastupdate/detail/util.hpp: safe_determinant, safe_inverse, safe_invert_in_place"]}
{"id": "C08", "title": "Determinant ratio and inverse when rows and columns are appended", "statement": "Given the inverse of a block A and the blocks B, C, D of an enlarged matrix, compute_det_ratio_up returns det(enlarged)/det(A) and compute_inverse_matrix_up returns the inverse of the enlarged matrix together with that same ratio.", "quantifier": "every size N of the old block (including 0), every number M of appended rows and columns, every invertible A and every B, C, D with an invertible enlarged matrix", "why_tests_cant": "An algebraic identity over all matrices of all sizes.", "anchors": ["include/alps/fastupdate/detail/fastupdate_formula.ipp: compute_det_ratio_up, compute_inverse_matrix_up"]}
{"id": "C09", "title": "Determinant ratio when rows and columns are removed", "statement": "Given the inverse of a matrix and the lists of rows and columns to delete, compute_det_ratio_down returns det(matrix with these rows and columns deleted, order of the others kept)/det(matrix), sign included.", "quantifier": "every invertible matrix, every pair of equally long strictly increasing lists of row and column positions", "why_tests_cant": "The sign depends on the positions; the number of choices is exponential.", "anchors": ["include/alps/fastupdate/detail/fastupdate_formula.ipp: compute_det_ratio_down", "include/alps/fastupdate/fastupdate_formula.hpp: compute_det_ratio_down"]}
{"id": "C10", "title": "Inverse matrix when rows and columns are removed", "statement": "compute_inverse_matrix_down turns the inverse of a matrix into the inverse of the matrix with the given rows and columns removed, with the remaining rows and columns rearranged by the swaps that moved the removed ones to the end.", "quantifier": "every invertible matrix, every pair of equally long strictly increasing lists of positions for which the smaller matrix is invertible", "why_tests_cant": "The in-place swaps interact with the positions that remain; correctness must hold for every position pattern.", "anchors": ["include/alps/fastupdate/detail/fastupdate_formula.ipp: compute_inverse_matrix_down"]}
{"id": "C11", "title": "Replacing trailing rows and columns", "statement": "ReplaceHelper returns det(new)/det(old) when the trailing block of rows and columns is exchanged for another one, possibly of a different size, and its inverse update yields the inverse of the new matrix.", "quantifier": "every size of the unchanged block, of the old and of the new trailing block, every invertible old and new matrix for which the quantities the code inverts are invertible", "why_tests_cant": "An identity over all matrices and all three sizes.", "anchors": ["include/alps/fastupdate/detail/fastupdate_formula.ipp: ReplaceHelper"]}
{"id": "C12", "title": "Replacing the last row or the last column", "statement": "The last-row and last-column routines return det(new)/det(old) and update the inverse in place to the inverse of the new matrix.", "quantifier": "every size >= 1, every invertible matrix and every new row or column with non-zero ratio", "why_tests_cant": "An identity over all matrices of all sizes.", "anchors": ["include/alps/fastupdate/detail/fastupdate_formula.ipp: compute_det_ratio_replace_last_row, compute_inverse_matrix_replace_last_row, compute_det_ratio_replace_last_col, compute_inverse_matrix_replace_last_col"]}
{"id": "C13", "title": "Determinant matrix: try returns the true determinant ratio", "statement": "Starting from any consistent determinant matrix, the value returned by a possible try (add, remove, remove-and-add, replace one creator or annihilator) equals det(after)/det(before), where det is the determinant of the Green-function matrix with creation and annihilation operators in time order.", "quantifier": "every operator configuration, every Green function, every admissible update", "why_tests_cant": "The ratio combines a block determinant with a permutation sign; every operator arrangement must be covered.", "anchors": ["include/alps/fastupdate/detail/determinant_matrix.ipp: try_update", "include/alps/fastupdate/detail/determinant_matrix_add.ipp", "include/alps/fastupdate/detail/determinant_matrix_remove.ipp", "include/alps/fastupdate/detail/determinant_matrix_remove_add.ipp", "include/alps/fastupdate/detail/determinant_matrix_replace.ipp"]}
{"id": "C14", "title": "Determinant matrix: consistency along every history", "statement": "After any sequence of admissible try/perform and try/reject cycles, the stored inverse is the inverse of the Green-function matrix of the stored operators, the operator look-up maps point to the stored positions, the stored permutation is the sign relating storage order to time order, and compute_determinant returns the determinant in time order.", "quantifier": "every history of update cycles from every consistent starting state", "why_tests_cant": "Errors accumulate over histories; swaps made by one update are inputs of the next.", "anchors": ["include/alps/fastupdate/detail/determinant_matrix.ipp: perform_update, reject_update, compute_determinant, sanity_check"]}
{"id": "C15", "title": "Determinant matrix: rejecting a possible update has no observable effect", "statement": "After try followed by reject the set of operators, the determinant and the pairing of operators with rows of the inverse are those from before the try.", "quantifier": "every consistent state and every admissible update", "why_tests_cant": "Rollback paths differ for each update mode and depend on the swaps made by try.", "anchors": ["include/alps/fastupdate/detail/determinant_matrix.ipp: reject_update", "include/alps/fastupdate/detail/determinant_matrix_remove.ipp: reject_remove", "include/alps/fastupdate/detail/determinant_matrix_remove_add.ipp: reject_remove_add"]}
{"id": "C16", "title": "Determinant matrix: rejecting an impossible update has no observable effect", "statement": "If try reports ratio zero because the update is impossible, a following reject leaves the operators and the determinant unchanged.", "quantifier": "every reachable state and every update request", "why_tests_cant": "Needs histories: the wrong behaviour depends on leftovers of an earlier update.", "anchors": ["include/alps/fastupdate/detail/determinant_matrix_remove.ipp: try_remove, reject_remove", "include/alps/fastupdate/detail/determinant_matrix_remove_add.ipp: try_remove_add, reject_remove_add"]}
{"id": "C17", "title": "Determinant matrix: call protocol", "statement": "perform or reject is accepted exactly once after each try and try is accepted exactly when no update is pending; any other order is reported as an error.", "quantifier": "every sequence of try, perform and reject calls", "why_tests_cant": "The set of call sequences is infinite.", "anchors": ["include/alps/fastupdate/detail/determinant_matrix.ipp: check_state, try_update, perform_update, reject_update"]}
{"id": "C18", "title": "Partitioned determinant equals the full determinant", "statement": "The product of the sector determinants and the stored permutation sign equals the determinant of the full Green-function matrix in time order when the Green function vanishes between sectors.", "quantifier": "every number of sectors, every operator configuration with balanced sectors, every sector-diagonal Green function", "why_tests_cant": "The sign of the regrouping depends on the full interleaving of the operators.", "anchors": ["include/alps/fastupdate/determinant_matrix_partitioned.hpp: compute_determinant", "include/alps/fastupdate/detail/determinant_matrix_partitioned.ipp: init, try_update"]}
{"id": "C19", "title": "Partitioned determinant: insertion and removal signs", "statement": "Inserting or erasing an operator in the global time order changes the regrouping sign by the returned factor, for every order of the calls.", "quantifier": "every set of operators, every sequence of insertions and removals", "why_tests_cant": "Histories of insertions and removals.", "anchors": ["include/alps/fastupdate/detail/determinant_matrix_partitioned.ipp: insert_and_compute_perm_sign_change, erase_and_compute_perm_sign_change"]}
{"id": "C20", "title": "Partitioned determinant: reject restores the operators", "statement": "After try_update followed by reject_update the container holds exactly the operators it held before try_update.", "quantifier": "every state and every update request, including requests that are reported as impossible", "why_tests_cant": "The failing case needs an insertion that collides with an operator already present.", "anchors": ["include/alps/fastupdate/detail/determinant_matrix_partitioned.ipp: try_update, reject_update"]}
{"id": "C21", "title": "CT-INT append formula", "statement": "compute_inverse_matrix_up2 returns the inverse of the enlarged matrix and the determinant ratio of the enlargement.", "quantifier": "every old size (including 0), every number of appended rows and columns, all blocks with invertible Schur complement", "why_tests_cant": "An identity over all matrices of all sizes.", "anchors": ["src/fastupdate_formula.h: compute_det_ratio_up, compute_inverse_matrix_up, compute_inverse_matrix_up2"]}
{"id": "C22", "title": "CT-INT removal formula", "statement": "Removing the same positions from rows and columns: compute_det_ratio_down returns det(remaining)/det(full) and compute_inverse_matrix_down returns the inverse of the remaining matrix under the reported swaps.", "quantifier": "every invertible matrix and every list of distinct positions with invertible remainder", "why_tests_cant": "Depends on the interplay of in-place swaps and positions.", "anchors": ["src/fastupdate_formula.h: compute_det_ratio_down, compute_inverse_matrix_down"]}
{"id": "C23", "title": "CT-INT row replacement and row-and-column replacement", "statement": "compute_det_ratio_replace_row returns det(new)/det(old) for a replaced row; compute_det_ratio_replace_rows_cols returns det(new)/det(old) for simultaneously replaced rows and columns.", "quantifier": "every size, every number of old and new rows and columns, all blocks for which the inverted sub-block is invertible", "why_tests_cant": "Identities over all matrices of all sizes.", "anchors": ["src/fastupdate_formula.h: compute_det_ratio_replace_row, compute_det_ratio_replace_rows_cols"]}
{"id": "C24", "title": "CT-INT inverse update for replaced rows and columns", "statement": "compute_inverse_matrix_replace_rows_cols leaves the inverse of the new matrix in its in/out argument.", "quantifier": "every size of the unchanged part, every number of old and new rows and columns", "why_tests_cant": "Only histories that remove and insert in one step reach it; every size must be covered.", "anchors": ["src/fastupdate_formula.h: compute_inverse_matrix_replace_rows_cols", "src/submatrix_impl/gamma.ipp: perform_add_remove"]}
{"id": "C25", "title": "CT-INT change of diagonal elements", "statement": "compute_det_ratio_replace_diaognal_elements returns det(new)/det(old) when given diagonal elements are shifted, and the update flag turns the inverse into the inverse of the shifted matrix.", "quantifier": "every matrix, every list of distinct positions and of shifts (ratio); every strictly increasing list of positions and every list of non-zero shifts with invertible result (inverse)", "why_tests_cant": "An identity over all matrices and positions.", "anchors": ["src/fastupdate_formula.h: compute_det_ratio_replace_diaognal_elements"]}
{"id": "C26", "title": "Submatrix update: spin-flip ratio is the weight ratio", "statement": "Inside an update session the three factors returned by try_spin_flip multiply to the ratio of the configuration weights det(A)/prod f * prod(-U) computed from scratch for the configurations after and before the flip.", "quantifier": "every session history, every set of vertices, every Green function, every assignment of auxiliary-field states", "why_tests_cant": "The ratio is computed from an incrementally maintained matrix whose content depends on the whole session history.", "anchors": ["src/submatrix_impl/common.ipp: try_spin_flip", "src/submatrix_impl/gamma.ipp: try_add, try_remove, try_add_remove"]}
{"id": "C27", "title": "Submatrix update: closing a session gives the right inverse", "statement": "After init_update, any sequence of accepted and rejected flips and finalize_update, the stored matrix is the inverse of the matrix built from scratch for the resulting configuration, restricted to interacting vertices.", "quantifier": "every session, every sequence of flips and accept/reject decisions", "why_tests_cant": "Histories.", "anchors": ["src/submatrix_impl/common.ipp: init_update, perform_spin_flip, reject_spin_flip, finalize_update", "src/submatrix_impl/invA.ipp: extend, update_matrix, remove_rows_cols"]}
{"id": "C28", "title": "Submatrix update: rejection has no effect", "statement": "try_spin_flip followed by reject_spin_flip leaves auxiliary fields, the running sign and the auxiliary matrices as they were.", "quantifier": "every state inside a session and every flip request", "why_tests_cant": "Histories.", "anchors": ["src/submatrix_impl/common.ipp: reject_spin_flip", "src/submatrix_impl/gamma.ipp: reject_add, reject_remove, reject_add_remove"]}
{"id": "C29", "title": "Submatrix update: measured matrix", "statement": "compute_M returns the inverse of G0 minus the diagonal matrix of alphas for the current configuration, computed from the stored inverse of A.", "quantifier": "every configuration without alpha equal to 0 or 1", "why_tests_cant": "An identity over all sizes.", "anchors": ["src/submatrix_impl/invA.ipp: compute_M", "src/submatrix_impl/common.ipp: compute_M, compute_M_from_scratch"]}
{"id": "C30", "title": "Submatrix update: session protocol", "statement": "Calls outside their phase (flip outside a session, perform or reject without a try, recompute inside a session) are reported as errors and every accepted call moves to the phase the next call expects.", "quantifier": "every sequence of calls", "why_tests_cant": "Infinite set of call sequences.", "anchors": ["src/submatrix_impl/common.ipp: init_update, finalize_update, try_spin_flip, perform_spin_flip, reject_spin_flip, recompute_matrix"]}
{"id": "C31", "title": "Submatrix update: finalize never fails", "statement": "finalize_update succeeds for every vertex list whose vertices were accepted by init_update.", "quantifier": "every list of vertices accepted by init_update, including vertices whose two parts act on one flavor", "why_tests_cant": "Depends on the flavor pattern of the interaction, which the input file determines.", "anchors": ["src/submatrix_impl/common.ipp: finalize_update", "src/submatrix_impl/invA.ipp: remove_rows_cols", "src/submatrix.hpp: InvAMatrix::find_row_col"]}
{"id": "C32", "title": "Insertion and removal satisfy detailed balance", "statement": "The correction factor of an insertion starting at order n times the correction factor of the removal that undoes it is one, and the acceptance probabilities satisfy detailed balance with respect to the configuration weight.", "quantifier": "every perturbation order, temperature, number of interaction terms and weight ratio", "why_tests_cant": "A statistical bias cannot be settled by finite sampling.", "anchors": ["src/update_manager.hpp: acc_rate_corr_insertion, pick_up_vertices_to_be_removed, insertion_step, removal_step, do_ins_rem_update"]}
{"id": "C33", "title": "The perturbation order limit is never exceeded", "statement": "The number of interacting vertices never exceeds max_order along any run that starts below it.", "quantifier": "every sequence of update sweeps and random numbers", "why_tests_cant": "Histories.", "anchors": ["src/update_manager.hpp: do_ins_rem_update"]}
{"id": "C34", "title": "Accepted global updates change the configuration", "statement": "When a global update is accepted, the sampler continues from the transformed configuration.", "quantifier": "every configuration and every accepted global update", "why_tests_cant": "The effect is lost silently and statistics alone do not reveal it.", "anchors": ["src/update_manager.hpp: global_update_impl, global_updates"]}
{"id": "C35", "title": "Global update maps are reversible", "statement": "Every global update that passes input validation is a permutation of the flavors and the reverse move undoes it.", "quantifier": "every input map accepted by the parser", "why_tests_cant": "Input space is unbounded.", "anchors": ["src/update_manager.hpp: VertexUpdateManager constructor, DoTransform"]}
{"id": "C36", "title": "Reported acceptance rates", "statement": "The reported acceptance rate of a move is the number of accepted attempts divided by the number of attempts.", "quantifier": "every history of attempts", "why_tests_cant": "Histories.", "anchors": ["src/update_manager.hpp: do_ins_rem_update, do_spin_flip_update, do_shift_update", "src/update_statistics.h: acc_rate_statistics"]}
{"id": "C37", "title": "On-site interaction construction", "statement": "Building the interaction from a single on-site U yields, for each site or pair of sites, exactly the density-density term with the documented indices and alphas, and every generated index is within range.", "quantifier": "every number of sites and flavors and every U and alpha", "why_tests_cant": "All sizes.", "anchors": ["src/U_matrix.h: general_U_matrix::set_onsite_U"]}
{"id": "C38", "title": "Interaction file validation", "statement": "A file with an out-of-range site, flavor or index, or with a repeated or missing index, is rejected, and an accepted file yields terms whose indices are all in range.", "quantifier": "every file content", "why_tests_cant": "Input space is unbounded.", "anchors": ["src/U_matrix.h: general_U_matrix::load_vertex_from_file"]}
{"id": "C39", "title": "Vertex container keeps distinct vertices", "statement": "The container never holds two vertices with the same identity, and removing vertices by position removes exactly those.", "quantifier": "every sequence of insertions and removals", "why_tests_cant": "Histories.", "anchors": ["src/U_matrix.h: ItimeVertexContainer::push_back", "src/util.h: remove_elements_from_vector"]}
{"id": "C40", "title": "Configuration dump and load round trip", "statement": "Loading a dumped configuration gives back the same list of vertices.", "quantifier": "every list of vertices", "why_tests_cant": "Unbounded data.", "anchors": ["src/U_matrix.h: load_config, dump"]}
{"id": "C41", "title": "Uniform choice of vertices to remove", "statement": "The routine that picks vertices for removal returns distinct positions of interacting vertices and every admissible selection is produced by the same number of random outcomes.", "quantifier": "every vertex list and every requested number", "why_tests_cant": "A bias cannot be settled by sampling.", "anchors": ["src/util.h: pickup_a_few_numbers", "src/U_matrix.h: pick_up_itime_vertices"]}
{"id": "C42", "title": "Bare Green function is antiperiodic", "statement": "Shifting one time argument by the inverse temperature flips the sign of the bare Green function, equal times are resolved by the creation/annihilation order, and the interpolation index is always inside the table.", "quantifier": "every pair of operators, every time difference, every table", "why_tests_cant": "Real-valued arguments.", "anchors": ["src/green_function.h: green_function::operator(), interpolate"]}
{"id": "C43", "title": "Times are folded into one period", "statement": "mymod returns the representative of x modulo beta in [0, beta).", "quantifier": "every x and every beta > 0", "why_tests_cant": "Real-valued arguments, the exception has measure zero.", "anchors": ["src/util.h: mymod"]}
{"id": "C44", "title": "Spline interpolation", "statement": "The cubic spline passes through every input point and is twice continuously differentiable at the inner points.", "quantifier": "every strictly increasing abscissa list of length at least 3 and every ordinate list", "why_tests_cant": "Real-valued input of any length; relies on the in-place tridiagonal solver being right for all sizes.", "anchors": ["src/spline.h: spline::set_points, operator(), band_matrix::lu_decompose, lu_solve"]}
{"id": "C45", "title": "Spline derivatives", "statement": "deriv(k, x) is the k-th derivative of the curve that operator() evaluates.", "quantifier": "every spline, every order and every x", "why_tests_cant": "Real-valued arguments.", "anchors": ["src/spline.h: spline::deriv"]}
{"id": "C46", "title": "Legendre polynomials", "statement": "The scalar and the vector Legendre evaluators return the Legendre polynomials of every requested order at every point.", "quantifier": "every number of polynomials and every argument", "why_tests_cant": "All orders.", "anchors": ["src/legendre.h: LegendreTransformer::compute_legendre"]}
{"id": "C47", "title": "Imaginary-time binning stays in range", "statement": "The bin computed for a measured time is always inside the histogram.", "quantifier": "every inverse temperature, number of bins and time in [0, beta)", "why_tests_cant": "The failing inputs are isolated floating-point values.", "anchors": ["src/measurement.ipp: compute_Stau"]}
{"id": "C48", "title": "Density correlation layout", "statement": "Post-processing reads each density correlation entry for exactly the site and flavor indices under which the measurement stored it.", "quantifier": "every number of sites and flavors", "why_tests_cant": "All sizes.", "anchors": ["src/measurement.ipp: measure_densities", "src/postprocess.hpp: postprocess_densities"]}
{"id": "C49", "title": "Order histogram and statistics", "statement": "Histograms count every in-range sample exactly once, and reported means are the total divided by the number of samples.", "quantifier": "every history of samples", "why_tests_cant": "Histories.", "anchors": ["src/interaction_expansion.hpp: histogram", "src/update_statistics.h: scalar_histogram, rebin, simple_update_statistcs"]}
{"id": "C50", "title": "Progress and thermalization", "statement": "The completed fraction never decreases, is zero until thermalization ends and reaches one exactly after the requested number of measured steps.", "quantifier": "every run length and every setting of the step counts", "why_tests_cant": "All runs.", "anchors": ["src/interaction_expansion.ipp: fraction_completed, update", "src/interaction_expansion.hpp: is_thermalized"]}
{"id": "C51", "title": "Removal ratio belongs to the rearranged matrix", "statement": "compute_det_ratio_down returns |G'|/|G| where G' is the matrix with rows and columns removed and the others rearranged as compute_inverse_matrix_down leaves them, as the header documents.", "quantifier": "every invertible matrix and every admissible pair of increasing position lists", "why_tests_cant": "Order-preserving and rearranged minors agree for many position patterns, e.g. whenever the same rows and columns are removed.", "anchors": ["include/alps/fastupdate/fastupdate_formula.hpp: compute_det_ratio_down", "include/alps/fastupdate/detail/fastupdate_formula.ipp: compute_det_ratio_down, compute_inverse_matrix_down"]}
{"id": "C52", "title": "CT-INT update for one row and one column", "statement": "compute_inverse_matrix_replace_row_col and its variant for singular intermediates return det(new)/det(old) when row m and column m are replaced, and leave the inverse of the new matrix.", "quantifier": "every size, every position m, every new row and column that agree on the diagonal element, whether or not the intermediate matrix without row and column m is singular", "why_tests_cant": "Singular intermediates form a set of measure zero that random tests never hit unless built on purpose.", "anchors": ["src/fastupdate_formula.h: compute_inverse_matrix_replace_row_col, compute_inverse_matrix_replace_row_col2"]}
{"id": "C53", "title": "CT-INT replacement of listed rows and columns", "statement": "replace_rows_cols and replace_rows_cols_respect_ordering put each entry of the four given blocks at the listed positions and leave all other entries alone, and generate_indices lists exactly the positions not given, in increasing order.", "quantifier": "every matrix size, every list of distinct in-range positions, all blocks", "why_tests_cant": "All position patterns.", "anchors": ["src/fastupdate_formula.h: replace_rows_cols, replace_rows_cols_respect_ordering, generate_indices"]}
{"id": "C54", "title": "Determinant from a pivoted factorisation", "statement": "lu_product returns factors whose product is the determinant, and phase_of_determinant returns det/|det|, or zero for a singular matrix.", "quantifier": "every square matrix and every factorisation P A Q = L U that the linear-algebra library may return (non-empty for lu_product)", "why_tests_cant": "The factorisation is not unique; the result must not depend on which one is returned.", "anchors": ["include/alps/fastupdate/detail/util.hpp: lu_product", "include/alps/fastupdate/resizable_matrix.hpp: phase_of_determinant"]}
{"id": "C55", "title": "Determinant matrix: time collisions are reported", "statement": "A request whose result would hold two operators at the same time is answered with ratio zero, whichever kind of update it is.", "quantifier": "every consistent state and every request removing existing operators", "why_tests_cant": "Collisions have probability near zero under random times; only a deliberate equal time shows that replacements are not checked.", "anchors": ["include/alps/fastupdate/detail/determinant_matrix.ipp: insertion_possible, removal_insertion_possible", "include/alps/fastupdate/detail/determinant_matrix_replace.ipp: try_replace_cdagg, perform_replace_cdagg"]}
{"id": "C56", "title": "Partitioned determinant: answers to requests", "statement": "For a request whose operators exist and whose times are free, a non-zero value returned by try_update is the ratio of the full time-ordered determinants and perform_update then leads to the requested operators; a zero value is exact as well, also when the request leaves a sector with different numbers of creation and annihilation operators, unless a sector both loses and gains operator pairs over a singular block.", "quantifier": "every sector structure, every sector-diagonal Green function, every reachable state, every such request", "why_tests_cant": "Requires all distributions of a request over sectors, with the regrouping sign depending on all operators.", "anchors": ["include/alps/fastupdate/detail/determinant_matrix_partitioned.ipp: try_update, perform_update"]}
{"id": "C57", "title": "Submatrix update: running sign", "statement": "The running sign equals the sign (phase) of the weight det(A)/prod f * prod(-U) of the current configuration, and that weight is never zero, at any point of any history of sessions.", "quantifier": "every history of construction, sessions, accepted and rejected flips, and recomputations", "why_tests_cant": "The sign is multiplied up over the whole run; an error in one update persists for ever.", "anchors": ["src/submatrix_impl/common.ipp: perform_spin_flip, recompute_matrix", "src/submatrix.hpp: sign"]}
{"id": "C58", "title": "Submatrix update: construction and recomputation", "statement": "Constructing from a vertex list takes over exactly these vertices with the sign of their weight; recompute_matrix outside a session changes neither vertices, sign nor matrix.", "quantifier": "every vertex list with non-zero weight, every reachable state outside a session", "why_tests_cant": "Holds for all vertex lists; recomputation is compared by the code with a tolerance only.", "anchors": ["src/submatrix_impl/common.ipp: constructors, recompute_matrix", "src/submatrix_impl/invA.ipp: recompute_matrix"]}
{"id": "C59", "title": "The Monte Carlo updates report the weight ratio they produced", "statement": "A sweep of insertions and removals, or of state changes, returns exactly the weight of the configuration after it divided by the weight before it, never fails, and leaves an object for which this holds again.", "quantifier": "every reachable object and every list of random numbers", "why_tests_cant": "Histories and real-valued state.", "anchors": ["src/update_manager.hpp: do_ins_rem_update, do_spin_flip_update, insertion_step, removal_step, spin_flip_step"]}
{"id": "C60", "title": "compute_weight is the configuration weight", "statement": "The weight computed from scratch for global updates equals the weight that the submatrix update tracks by ratios, and a global update is accepted exactly with the Metropolis rule for it.", "quantifier": "every interacting configuration, vertex types and maps preserving rank and states", "why_tests_cant": "Two independent computations over unbounded configurations.", "anchors": ["src/interaction_expansion.ipp: compute_weight", "src/update_manager.hpp: global_update_impl"]}
{"id": "C61", "title": "Spline objects can be reused", "statement": "The curve after set_points depends only on the points passed and the boundary settings, not on points set earlier on the same object.", "quantifier": "every spline object, every two successive point lists, cubic or linear", "why_tests_cant": "A leftover entry is visible only outside the data and only after a particular order of calls.", "anchors": ["src/spline.h: spline::set_points"]}
{"id": "C62", "title": "The bare Green function file is accepted only if complete, ordered and Hermitian, and is then reproduced exactly on its grid", "statement": "Whenever read_itime_data returns without an exception for a file with at least two times, the header agrees with the requested numbers of flavors and sites and, within 1e-8, with beta; every line holds the flavor, site and time indices of its position in the loop order, with no line missing; the stored Green function takes on every grid time exactly the value of the line with these indices (its real part in a real-valued build), is a natural cubic spline in between, and is Hermitian within 1e-8 at 0, beta/2 and beta. Conversely every complete, ordered and exactly Hermitian file with a matching header is accepted.", "quantifier": "for all headers, all lists of lines, all numbers of flavors, sites and times >= 2, all beta > 0, real and complex builds", "why_tests_cant": "A test reads a few sample files; the claim ranges over all file contents, including truncated and permuted ones where the failed stream extraction silently leaves the old values.", "anchors": ["src/green_function.h:28-123", "src/spline.h"]}
{"id": "C63", "title": "Density correlations with complex matrices", "statement": "In the complex program the stored correlation of two densities is the expectation value of their product, as in the real program.", "quantifier": "every complex Green function, every configuration", "why_tests_cant": "The shipped tests of the complex program do not compare correlations, and real-valued inputs hide the difference.", "anchors": ["src/measurement.ipp: measure_densities", "src/main_complex.cpp"]}
{"id": "C64", "title": "Joint end of the run", "statement": "All ranks leave the main loop together, at the first reduction at which a rank was told to stop or the ranks together have measured the requested number of steps, and not earlier.", "quantifier": "every number of ranks, every schedule of reductions and stop requests, every setting", "why_tests_cant": "Schedules of many ranks and rounding of the summed fractions.", "anchors": ["src/interaction_expansion.hpp: mcmpiadapter::run", "src/interaction_expansion.ipp: fraction_completed"]}
{"id": "C65", "title": "Periodic recomputation", "statement": "The inverse matrices are recomputed from scratch in every twentieth call of update() and in no other, for every accepted measurement period.", "quantifier": "every measurement period and run length", "why_tests_cant": "Wrap-around of the 32-bit product appears only at extreme settings.", "anchors": ["src/interaction_expansion.ipp: update"]}
{"id": "C66", "title": "Legendre measurement", "statement": "compute_Sl and compute_Sl_optimized fill the same table; entry (z, i, j, l) is the sum over shifts and creation operators at site i of the antiperiodic sign times sign / number of shifts times sqrt(2l+1) P_l(x) times (M G0)_j, where x in [-1, 1) is the wrapped shifted time and P_l the Legendre polynomial.", "quantifier": "every Green function, configuration, list of shifts, number of orders >= 1", "why_tests_cant": "The two versions flatten indices differently; the sum has no closed reference in the tests.", "anchors": ["src/measurement.ipp: compute_Sl, compute_Sl_optimized", "src/legendre.h"]}
{"id": "C67", "title": "From measured bins to the stored self-energy", "statement": "For every non-empty series of measurements with non-zero average sign the evaluation stores: SigmaG_tau = binned sums divided by the summed sign; SigmaG_legendre = the sum C66 computes with every time replaced by the centre of its bin, which is off by at most half a bin; SigmaG_omega = its transform with (-1)^n i^(l+1) sqrt(2l+1) j_l((2n+1) pi/2).", "quantifier": "every series of configurations, every number of bins, orders, frequencies", "why_tests_cant": "Composition of accumulation, averaging and two transforms, for any history.", "anchors": ["src/measurement.ipp: measure_Sl, compute_Stau", "src/postprocess.hpp: evaluate_selfenergy_measurement_binning", "src/legendre.h: Tnl"]}
{"id": "C68", "title": "Determinant as a list of factors", "statement": "compute_determinant_as_product of DeterminantMatrix and of DeterminantMatrixPartitioned returns numbers in ascending order of absolute value whose product is the determinant of the full Green-function matrix with all operators in time order, for every factorisation Eigen may choose and every order std::sort may choose among equals, including the empty matrix and several sectors whose operators alternate in time", "quantifier": "all configurations an object can hold, all numbers of sectors, all pivoted LU factorisations, all sorting functions", "why_tests_cant": "Tests multiply the factors of a few random matrices; they do not vary the pivoting, hardly reach a negative regrouping sign together with an empty sector, and compare with the same object's compute_determinant instead of the full determinant", "anchors": ["include/alps/fastupdate/determinant_matrix.hpp:137-157", "include/alps/fastupdate/determinant_matrix_partitioned.hpp:201-215", "include/alps/fastupdate/detail/util.hpp:195-211"]}
{"id": "C69", "title": "Recorded expansion orders", "statement": "However the walker was reached, measure_observables between two sessions records in PertOrder, for every flavor, the number of operators of that flavor in the current vertices and in PerturbationOrderVertex, for every vertex type, the number of vertices of that type, without reading out of range; the latter sum to the perturbation order, and every entry of the former is the sum over types of the count times the number of parts of the type on the flavor", "quantifier": "all interactions, all histories of sessions, all vertex lists", "why_tests_cant": "Tests print averaged orders; an off-by-one after a removed vertex or a stale matrix size changes an average by less than its error bar", "anchors": ["src/measurement.ipp:73-115", "src/submatrix_impl/common.ipp:349-356"]}
{"id": "C70", "title": "Moves of two vertices", "statement": "Inserting two vertices of a valid pair of types and removing such a pair satisfy detailed balance with respect to |weight| us^n: the proposal draws the pair of types uniformly, the first time uniformly and the time difference by rejection from the density exp(-a d)+exp(-a(beta-d))+b bounded by its value at zero; the removal draws among all pairs of interacting vertices of the two types with the same density; the insertion is accepted exactly when the random number is below |W'/W| beta Z us^2 / F(new configuration), the removal exactly when it is below |W'/W| F(old configuration)/(beta Z us^2), with F the sum of the density over all such pairs and Z its integral; the returned number is the weight ratio of the configurations after and before the step", "quantifier": "all interactions, all configurations reachable by sessions, all pairs of different types, all parameters of the density, all random numbers; removals of two vertices that are both old or both new in the session", "why_tests_cant": "No run reaches these branches (the number of vertices per update is fixed to one), so no test covers them; a missing factor F or beta biases averages without any failure", "anchors": ["src/update_manager.hpp:29-42", "src/update_manager.hpp:428-498", "src/update_manager.hpp:561-607", "src/update_manager.hpp:640-664", "src/U_matrix.h:606-631", "src/U_matrix.h:732-776", "src/util.h:227-241"]}
{"id": "C71", "title": "Valid pairs of vertex types", "statement": "find_valid_pair_multi_vertex_update lists every pair of types v1 < v2 whose non-zero quantum numbers sum to zero exactly once and sets the flags of both orders accordingly; the pairs given in update.double_vertex_update_pairs are appended unless the pair or its reverse is already there, so that each unordered pair stays listed once, which the uniform choice of a pair relies on; a type outside the table is an error", "quantifier": "all tables of quantum numbers of equal length, all lists of user pairs", "why_tests_cant": "No test gives quantum numbers or user pairs; a pair listed in both orders changes proposal probabilities silently", "anchors": ["src/U_matrix.h:818-840", "src/update_manager.hpp:191-222", "src/util.h:214-224"]}
{"id": "C72", "title": "Pairs of equal types", "statement": "Every pair accepted from update.double_vertex_update_pairs can be inserted: the acceptance correction of the insertion can be computed", "quantifier": "all pairs of types within the table, including a type paired with itself", "why_tests_cant": "The parameter has no test; a type paired with itself is accepted at start-up and fails only when the move is first tried", "anchors": ["src/update_manager.hpp:206-219", "src/update_manager.hpp:586-607", "src/U_matrix.h:732-776"]}
{"id": "C73", "title": "One measurement of a walker", "statement": "measure_observables succeeds on a walker between two updates, and what it hands to the accumulators is determined by the vertices: Sign is the sign of their weight, bin k of Stau_z_s1_s2 is the average over the shifts of the weight quotients with a creation operator of site s1 moved into that bin to site s2, the densities and n_i_n_j are the weight quotients with operators added at time tau (Wick's theorem), PertOrder and PerturbationOrderVertex are the numbers of operators per flavor and of vertices per type", "quantifier": "all walkers reachable by any sequence of sessions, moves, rejections, recomputations and constructions; all interactions with existing sites, all shifts, times and numbers of bins", "why_tests_cant": "The estimators read matrices updated incrementally through the whole history of the walker; a test sees averages over one short run and cannot tell a wrong row order or a stale matrix from noise", "anchors": ["src/measurement.ipp:74-199", "src/measurement.ipp:422-596", "src/submatrix_impl/common.ipp:349-356", "src/submatrix_impl/invA.ipp:327-346"]}
{"id": "C74", "title": "Measurements depend on the vertices alone", "statement": "Two walkers that hold the same vertices, in whatever order and numbering, hand exactly the same values of all observables to the accumulators for the same random numbers", "quantifier": "all pairs of walkers reachable by any two histories, all interactions, all random numbers", "why_tests_cant": "Needs two walkers with different histories that end in the same vertices; no test compares two histories", "anchors": ["src/measurement.ipp:74-199", "src/measurement.ipp:422-596", "src/submatrix_impl/common.ipp:349-356"]}
{"id": "C75", "title": "The results of a whole run", "statement": "The entries /densities, /ni_nj and /SigmaG_tau of the result file of the real program are the averages over the measured configurations, weighted with the sign of the weight and divided by the mean sign, of the weight quotients that define densities, density correlations and the self-energy function of the vertices; measuring and evaluating never throws nor leaves an array", "quantifier": "all runs: any number of measurements of walkers reached by any histories, all interactions with existing sites and real parameters, all random numbers, mean sign not zero", "why_tests_cant": "Couples the incremental matrix updates, the measurement and the evaluation program; tests compare one observable of one run within error bars of per cent", "anchors": ["src/measurement.ipp:74-199", "src/measurement.ipp:422-596", "src/postprocess.hpp:75-192", "src/interaction_expansion.ipp:159-178"]}
{"id": "C76", "title": "Quantum numbers of the vertices", "statement": "make_quantum_numbers splits the sites of every flavor into groups that the bare Green function does not connect, and lists for every vertex, spin, flavor and group the number of particles created there minus the number annihilated", "quantifier": "all numbers of flavors and sites, all tables of the bare Green function, all interactions", "why_tests_cant": "Arguments of the lookup are exchanged, which shows only when flavors and sites differ in number or in connection; the function is not reached at this commit, so no test runs it", "anchors": ["src/green_function.h:310-374", "src/update_manager.hpp:185-200"]}
{"id": "C77", "title": "Selection rule for insertions", "statement": "A configuration whose total quantum number is not zero has weight zero, so a pair of types that find_valid_pair_multi_vertex_update leaves out never has a non-zero weight", "quantifier": "all interactions, all tables of the bare Green function, all configurations", "why_tests_cant": "A wrongly excluded pair leaves every single move correct and makes part of the configuration space unreachable", "anchors": ["src/green_function.h:310-374", "src/U_matrix.h:819-850"]}
{"id": "C78", "title": "Window in imaginary time", "statement": "non_density_type_in_window accepts exactly the non-density vertices on the arc of length w that starts at ts on the circle of length beta, and random_time draws its times from that arc and reaches all of it", "quantifier": "all beta, all starts and widths in [0, beta], all times", "why_tests_cant": "The wrap-around at beta and its end points are met with probability zero by random tests", "anchors": ["src/U_matrix.h:518-560"]}
{"id": "C79", "title": "Pairs of vertices in a window", "statement": "pick_up_valid_vertex_pair reports the number of pairs of vertices in the window whose types are marked as valid and returns one of them, each for one value of the random index; count_valid_vertex_pair reports the same number", "quantifier": "all configurations, all tables of flags, all windows, all random numbers", "why_tests_cant": "The detailed balance of the double move rests on the exact count; an undefined write past a reserved vector often goes unnoticed", "anchors": ["src/U_matrix.h:655-728"]}
{"id": "C80", "title": "Vertices generated in a window", "statement": "generate_valid_vertex_pair and generate_itime_vertices return vertices of the drawn types with an existing spin and a time of the window, use a fixed number of random numbers, and return nothing when no type is allowed", "quantifier": "all interactions, all lists of types, all random numbers", "why_tests_cant": "The proposal probability needs the exact correspondence of random numbers and vertices for every interaction", "anchors": ["src/U_matrix.h:578-652"]}
{"id": "C81", "title": "Cutoff of the time differences", "statement": "update_cutoff divides the distances up to the cutoff into four quarters and changes the cutoff exactly when every quarter has 100 samples and some mean value is not negative: it is enlarged when the mean value of the last quarter is above the given fraction of the largest one, reduced when it is below; over all flavors the largest result is taken and limited to the range from one bin to all bins. After enough samples a cutoff adapts to what was recorded", "quantifier": "all histograms, fractions, cutoffs and magnifications", "why_tests_cant": "A cutoff that has become too small for the bins never changes again, which shows only after a long thermalization", "anchors": ["src/update_statistics.h:21-73", "src/update_statistics.h:284-320", "src/update_statistics.h:403-411"]}
{"id": "C82", "title": "Learning of the proposal rates", "statement": "After finish_learning the proposal rates of update_proposer are positive and add up to one, the expected numbers of valid updates are to each other as the requested rates, later reports change nothing and a second finish_learning throws", "quantifier": "all numbers of vertices, all positive rates, all histories of reports", "why_tests_cant": "The rates are random results of the thermalization; a wrong power or order in the loop gives plausible rates", "anchors": ["src/update_statistics.h:14-110"]}
{"id": "C83", "title": "Continuing from a dumped configuration", "statement": "A walker built from the configuration that dump has written has the same vertices, the same sign and gives the same measurement as the walker that was dumped, and its times lie in [0, beta)", "quantifier": "all reachable states between two updates, all times", "why_tests_cant": "It needs a pair of runs compared value by value; the rounding of the printed times shows only for rare times", "anchors": ["src/U_matrix.h:855-871", "src/U_matrix.h:883-893", "src/interaction_expansion.ipp:56-62"]}
{"id": "C84", "title": "Shift of all times", "statement": "If all vertices are moved by the same imaginary time modulo beta, the weight and the sign of the configuration do not change although every Green function that crosses beta changes its sign, and no look-up in the table leaves the table", "quantifier": "all tables of the bare Green function, interactions, configurations in [0, beta) and shifts", "why_tests_cant": "The symmetry is exact only without rounding and is not visible in the result of one run", "anchors": ["src/green_function.h:128-158", "src/submatrix_impl/common.ipp:1-50", "src/spline.h:1-140"]}
{"id": "C85", "title": "Replacing rows and columns one after the other", "statement": "compute_inverse_matrix_replace_rows_cols_succesive gives the inverse of the matrix with all given rows and columns replaced and the ratio of the determinants, provided no intermediate matrix is singular; the variant for one row and column gives the ratio when the old inverse has no diagonal entry there, leaves the inverse unchanged if only the ratio is asked for and throws for another number of rows", "quantifier": "all fields, sizes, sorted positions and replacement blocks", "why_tests_cant": "The positions are scattered over three blocks by running indices; tests use few shapes", "anchors": ["src/fastupdate_formula.h:496-597"]}
{"id": "C86", "title": "Start of the program", "statement": "The simulation starts only if exactly one of model.U and model.U_matrix_file is supplied, the table of the bare Green function exists and belongs to the given beta, sites and spins, and measurement_period is positive. Then every interaction term uses existing sites and spins, every look-up of the Green function for operators at times in [0, beta) stays in the table and gives the values of the file, the walker holds exactly the vertices of the configuration file (none without one) with the sign of their weight, and every later measurement succeeds; input without meaning (negative beta, unusable alpha) is refused", "quantifier": "all parameters, interaction files, tables and configuration files", "why_tests_cant": "Each part is tested with consistent files; what matters here is that the checks of the parts together are enough for all later accesses, for every combination of inputs", "anchors": ["src/interaction_expansion.ipp:10-80", "src/U_matrix.h:136-207", "src/green_function.h:28-123", "src/U_matrix.h:855-871"]}
{"id": "C87", "title": "Checks of the debug build", "statement": "sanity_check() of the submatrix update passes for every object a program can reach, in and between sessions, and leaves configuration, signs and matrices unchanged. Outside a session it passes only if every part of every vertex has exactly one row, with its operators and its alpha, and there is no other row; if it passes with every tolerance, the auxiliary matrix of each flavor is the exact inverse of the matrix it stands for; and the stored inverse A^{-1} is right", "quantifier": "all histories; all objects, also unreachable ones, for what a passed check implies", "why_tests_cant": "The tests run the check on the states of one random walk; they can show neither that it never fails on a correct state nor which wrong states it lets pass", "anchors": ["src/submatrix_impl/common.ipp:51-72", "src/submatrix_impl/gamma.ipp:43-71", "src/submatrix_impl/invA.ipp:81-98", "src/submatrix_impl/invA.ipp:552-600"]}
{"id": "C88", "title": "Number of ordered selections", "statement": "permutation(N, k) returns the number of ways to choose k of N things in order, N!/(N-k)!, and 0 if k exceeds N", "quantifier": "all N and k of type size_t with k > 0", "why_tests_cant": "A test tries small numbers with k <= N; the wrap of the unsigned difference and the endless loop at the largest N show only when all arguments are considered", "anchors": ["src/util.h:50-57"]}
{"id": "C89", "title": "Setup of the updates", "statement": "The constructor of the update manager makes every vertex type, of density type or not, take part in moves of one vertex exactly once; it accepts no rates or as many rates as update.n_multi_vertex_update asks for, moves then have up to that many vertices, and the vertex types announced for shifts are those that are shifted", "quantifier": "all lists of vertex types and all values of the parameters", "why_tests_cant": "The tests construct it with the default parameters; that a parameter has no effect shows only when all values are compared", "anchors": ["src/update_manager.hpp:149-345"]}
{"id": "C90", "title": "No run fails", "statement": "After a start with model.U, not zero, and without a configuration, every number of calls of update, with any random numbers of [0,1) and any accepted file of global updates, throws no exception, reads nothing out of range and inverts no singular matrix; the times of all vertices stay in [0,beta), their number does not exceed the limit, and every measurement afterwards succeeds; whatever numbers have been drawn, with suitable further ones the calls come to an end", "quantifier": "all inputs accepted at the start with model.U, all parameters of the moves with a shift step below 2 beta, all sequences of random numbers, all numbers of calls", "why_tests_cant": "A test follows one sequence of random numbers for a limited number of steps; a failure may need any number of them", "anchors": ["src/interaction_expansion.ipp:9-154", "src/update_manager.hpp:348-856"]}
{"id": "C91", "title": "Order of operator times", "statement": "operator< on operator times is a strict total order whose ties are exactly operator==: a larger time is later whatever the small index, equal times are ordered by the small index; two creators or annihilators compare equal exactly if flavor, site, time and small index agree", "quantifier": "all operator times and operators", "why_tests_cant": "Transitivity and totality speak about all triples of times", "anchors": ["src/operator.hpp:8-103"]}
{"id": "C92", "title": "Distance from the identity", "statement": "is_identity throws for a matrix that is not square; otherwise it returns the largest deviation of an element from the identity matrix, which is 0 exactly for the identity", "quantifier": "all sizes and matrices", "why_tests_cant": "A test compares a few matrices", "anchors": ["src/util.h:192-212"]}
{"id": "C93", "title": "Spread of vertices in imaginary time", "statement": "compute_spread, for times of [0,beta) and any centre atan2 can return, does not fail its assertion and returns a length between 0 and beta such that the centre and all times lie on an arc of that length of the circle of circumference beta, with one of them at each end of the arc; a single vertex at the centre has spread 0", "quantifier": "all numbers of vertices, times of [0,beta), centres of [-pi,pi]", "why_tests_cant": "Times just before beta and just after 0 are rare in samples", "anchors": ["src/update_statistics.h:154-191"]}
{"id": "C94", "title": "Relative difference", "statement": "my_rdiff returns the difference of two numbers relative to the larger modulus", "quantifier": "all pairs of numbers that are not zero", "why_tests_cant": "A test that only asks whether the result is below a bound for equal numbers passes", "anchors": ["src/util.h:249-252"]}
{"id": "C95", "title": "Saving an object of a type known at run time", "statement": "save of a boost::any writes a real or complex number, a real or complex array of 1 to 8 indices or one of the two Green functions exactly once, to the completed path, and keeps what the archive held; any other object is refused with an exception and nothing is written; a sequence of saves leaves the supported objects in order", "quantifier": "all types, values, paths and archives, all sequences of saves", "why_tests_cant": "A test saves one or two types", "anchors": ["src/hdf5/boost_any.hpp:12-101"]}
{"id": "C96", "title": "Evaluation of directly recorded Legendre coefficients", "statement": "evaluate_selfenergy_measurement_legendre turns recorded coefficients into the sum of the coefficients divided by the sum of the signs, and the Matsubara values into the product of Tnl with these; with the coefficients of compute_Sl_optimized recorded for every configuration, Sl is the average of the Legendre functions at the exact positions of the shifted times, not at centres of bins", "quantifier": "all numbers of coefficients and frequencies, all non-empty sets of records with non-zero sum of signs, all configurations", "why_tests_cant": "A test compares two noisy estimates", "anchors": ["src/postprocess.hpp:17-72", "src/measurement.ipp:159-176", "src/measurement.ipp:203-318"]}
{"id": "C97", "title": "Checks of compute_M and the determinants of the flavors", "statement": "Between sessions the debug-build assertions of InvAMatrix::compute_M hold for every history; matrices that pass them for every tolerance are inverses of G0 - alpha (also where sanity_check sees nothing); compute_f_prod is the product of 1/(1 - alpha) over the operators of the flavor, and InvAMatrixFlavors::determinant times these products is the inverse of the product of the determinants in the weight", "quantifier": "all interactions with usable types, all histories of sessions, flips, rejections and recomputations", "why_tests_cant": "Assertions are off in release builds, and a test visits few configurations", "anchors": ["src/submatrix_impl/invA.ipp:156-167", "src/submatrix_impl/invA.ipp:327-368", "src/submatrix.hpp:227-233"]}
