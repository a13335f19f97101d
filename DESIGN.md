# CT-INT formal model: design

## Approach

The model is written in Rocq (Coq 8.16.1) from a reading of the C++ source; the
source is not run.  Each model definition cites the file and lines it models
and states its simplifications.  Files named `*Model.v` hold definitions only,
`*Spec.v` hold specifications written independently of the model,
`*Proofs.v` hold lemmas, and `Prop_*.v` hold only the property theorems
(`exact lemma`) with `Print Assumptions` beneath and an example that meets the
hypotheses.

Conventions

* Floating-point scalars are replaced by an arbitrary field (mathcomp
  `fieldType`), an ordered field, or Coq's `Q`/`R`, depending on the property.
  Rounding is outside the model except where a property is about rounding; then
  the IEEE binary64 functions of `Coq.Floats.SpecFloat` are used.
* A matrix of variable size is a size plus an entry function `nat -> nat -> F`
  (only entries below the size are meaningful); `det`/`inverse` calls into Eigen
  are mathcomp's `\det`/`invmx` on the visible block.  A call of Eigen's inverse on a
  singular matrix is a precondition violation and theorems exclude it by a
  hypothesis on determinants.
* Exceptions, undefined behaviour (out-of-range access, missing return value,
  read of an uninitialised value) and non-termination are distinct outcomes.
* Loops are structural recursion or take fuel, and out-of-fuel is an outcome that the
  theorems exclude.
* Random numbers, the Green function and weights are universally quantified
  parameters.

## Plan per property

| id | modelled | method |
|----|----------|--------|
| C01 | bubble sort with sign | fuel bounded by inversion count, sign = parity of inversions |
| C02 | same, repeated values | refutation: no fuel suffices |
| C03 | comb sort with gap sequence | termination measure (gap, inversions), sortedness, parity |
| C04 | union-find with path compression | invariant + equivalence closure |
| C05 | greedy grouping loop | refutation by a three-site witness |
| C06 | size + capacity + entry function | refinement to plain matrix over op lists |
| C07 | scaling by the maximum | determinant/inverse of scaled matrix |
| C08 | block update | block matrix algebra (Schur complement) |
| C09 | minor ratio with sign | Jacobi's complementary minor theorem |
| C10 | swap loops + block downdate | invariants of swap loops + block inverse |
| C11 | ReplaceHelper | block algebra |
| C12 | last row / column | Sherman-Morrison type algebra |
| C13-C17 | DeterminantMatrix as a state machine | invariant over histories; refutation for C16 |
| C18-C20, C56 | partitioned container | permutation-sign bookkeeping; refutation for C20 |
| C21-C25 | CT-INT formulas | block algebra; refutation for C24 |
| C26-C31 | submatrix session as a state machine | invariant relating Gamma matrix to A; refutation for C31 |
| C32 | acceptance ratio algebra | field/order arithmetic, detailed balance identity |
| C33 | insertion/removal loop | invariant over sweeps |
| C34-C36 | global update, acceptance counters | refutations and guarded positives |
| C37-C41 | interaction input, containers, selection | list functions, counting |
| C42-C46 | Green function, folding, spline, Legendre | arithmetic over Q/R |
| C47 | binning | exact range proof; binary64 refutation |
| C48-C50 | layout, statistics, progress | list/index arithmetic |
| C52-C53 | one row/column update, replacement by position | block algebra; refutation for singular intermediates |
| C54-C55 | corner cases found while modelling | refutation with witness |
| C57-C60 | session and sampler invariants over whole runs | induction over the moves |
| C63 | densities in the complex program | refutation by a Hermitian two-site witness |
| C64-C65 | the main loop on all ranks, parts executed per turn | induction over schedules; binary64 and wrap-around witnesses |
| C66-C67 | Legendre measurement, evaluation of the bins | exchange of sums; induction over measurements |
| C68-C69 | factors of the determinant, recorded orders | any pivoted LU; induction over histories |
| C70-C72 | moves of two vertices, valid pairs of types | C26 composed with a Metropolis lemma; induction over lists |
| C73-C75 | one measurement, independence of the history, results of a run | C29, C47, C48, C57, C67, C69 composed; Cramer's rule; invariance under rearrangement |
| C76-C77 | quantum numbers, selection rule | induction over sites and parts; expansion of the determinant over permutations |
| C78-C80 | window in imaginary time, pairs and vertices in it | arithmetic on the circle; induction over lists and random numbers |
| C81-C82 | cutoff of time differences, learning of the proposal rates | case analysis of the loop over quarters; loop invariants; a stuck witness |
| C83 | continuing from a dumped configuration | C58 and C74 composed with the reader; witness in decimal digits |
| C84 | invariance under a shift of all times | C42 composed; diagonal scaling of the determinant by signs |
| C85 | replacing rows and columns one after the other | induction over the steps; C09 and C52 composed |
| C86 | start of the program | the models of interaction, table, configuration and walker composed; witnesses of accepted input without meaning |
| C87 | checks of the debug build | invariant of the submatrix update for passing; pigeonhole on the keys of the rows for what a passed check implies |
| C88 | number of ordered selections | induction on the loop, count of injective functions; wrap of size_t |
| C89 | setup of the updates | case analysis on the parameters |
| C90 | no run fails | invariant of `update` (reachable, idle, times in range), liveness (unused numbers are passed on, every rejection loop can end), composed with the models of the start and the measurements |
| C91-C94 | order of operator times, distance from the identity, spread, relative difference | case analysis; loop invariants of maxima; arithmetic on the circle |
| C95 | saving an object of a type known at run time | case analysis on the type; induction over the saves |
| C96 | directly recorded Legendre coefficients | linearity of the mean; C66 for every configuration |
| C97 | checks of compute_M, determinants of the flavors | invariant of reachable states (C29), determinant of a diagonal product |
| C61-C62 | spline reuse, the table of the bare Green function | unfolding; C44 composed with C42 |

Status is kept in `MANIFEST.json`.

## Findings

Each is a theorem ending in `_refuted` (or stating the undefined outcome) with a
concrete witness.

* C02: `permutation_sign` (alps/fastupdate detail/util.hpp) never returns on a
  sequence with two equal elements.
* C03: `comb_sort` on an empty range is undefined behaviour.
* C05: `make_groups` is greedy and not transitive; it also looks the connectivity
  up with permuted arguments.
* C09: `compute_det_ratio_down` has the wrong sign for lists that are not
  increasing.
* C51: the header says the ratio belongs to the rearranged matrix; it belongs to the
  order-preserving minor.
* C11: `ReplaceHelper` returns ratio 0 when the unchanged block is singular although
  the true ratio may be non-zero.
* C23: `compute_imverse_matrix_replace_row` has no return statement.
* C24: `compute_inverse_matrix_replace_rows_cols` line 808 assigns to `tRp_view`
  what belongs to the upper left block.
* C52: the singular branch of `compute_inverse_matrix_replace_row_col` (and `_col2`)
  drops the term with the new diagonal element.
* C53: `generate_indices` writes out of range when a position is repeated.
* C13: `try_update` (add and remove in one request) returns 0 whenever the kept block
  is singular, although the true ratio may be non-zero.
* C16: rejecting an impossible removal re-inserts operators of an earlier removal;
  rejecting an impossible remove-and-add reads members never assigned.
* C17: empty requests bypass the state check; a refused `try_update` destroys the
  pending update; `perform_update` after rejecting a remove-and-add replaces the
  inverse before throwing; `perform_update` before any `try_update` is undefined.
* C20: `DeterminantMatrixPartitioned::try_update` inserts into `std::set`-like containers
  without looking at the result; an operator at an occupied time is not inserted, the
  blocks answer 0, and `reject_update` erases the operator that was there before
  (`size()` is then one too small).
* C42: `read_itime_data` accepts a table with one time point; every evaluation then
  reads the spline coefficients at index -1.
* C43: `mymod` returns beta, not 0, for a negative multiple of beta; its conversion to
  int is undefined beyond 2^31 periods.
* C55: replacing one operator by another at an occupied time is accepted in the
  single-row replacement path.
* C26: an auxiliary field changed twice in one session needs a replaced row in the
  auxiliary matrix; `try_spin_flip` throws "Not implemented".  Requests that on one flavor
  both move away from the state at the start of the session and return to it (not
  `simple`) go through C24: their ratio is right if the configuration with only the
  returning vertices switched has a weight, rejecting them is harmless up to the order of
  the rows of the auxiliary matrix (C28), accepting them is undefined unless as many rows
  are kept as added or none is kept (`C26_mixed_accept_refuted`).  Insertions,
  removals, state changes and shifts as the update manager makes them are `simple`
  (C32, C59).
* C30: the phase of a session is only asserted in debug builds; in a release build
  `finalize_update` outside a session returns normally and `perform_spin_flip` without
  a request changes the vertices and not the matrices.
* C31: `finalize_update` throws when a non-interacting vertex has no operator on some
  flavor (`C31_finalize` says exactly when).
* C38: `load_vertex` ignores the index column (a repeated index is accepted), accepts a
  truncated file (the failed reads leave the previous values), and a negative flavor
  wraps modulo 2^32.
* C39: `ItimeVertexContainer::push_back` builds the error for an occupied time and does
  not throw it.
* C40: `dump` writes times with six digits, so `load_config` reads other times; the
  call of `dump` in `finalize()` is commented out.
* C41: `pickup_a_few_numbers` never returns when asked for more numbers than exist.
* C34: `global_updates` takes the shared pointer by value and swaps its own copy; an
  accepted global update never reaches the sampler.
* C35: a map of vertex types that is not injective passes validation; its "reverse" does
  not undo it.
* C36: acceptance is recognised by `ratio != 1`, so an accepted move with ratio exactly 1
  counts as rejected; `acc_rate_shift` is never incremented and is reported as 0/0.
* C45: `spline::deriv(2, x)` left of the data multiplies by `x - x_0` (spline.h:435).
* C46: with `G1.n_legendre = 0` the constructor of `LegendreTransformer` writes
  `sqrt_2l_1[0]` of an empty vector.
* C47: the bin of `compute_Stau` is `int(time / dtau)` with a rounded `dtau`; for
  beta = 1.7 and the default 10000 bins two times that the generator can draw give bin
  10000, a write past the end.  In exact arithmetic the bin is always right.
* C63: in the complex program `measure_densities` cuts every entry of the density matrix
  to its real part before multiplying, so correlations on one flavor are wrong whenever an
  off-diagonal entry has an imaginary part.
* C49: the two-argument constructor of `scalar_histogram` builds its vectors with size and
  value swapped, so they are empty and the first `add_sample` writes past the end.
* C64: fractions of ranks are rounded before they are added; 35 requested steps done as
  8, 9 and 18 by three ranks add up to less than one in every order, and the run goes on.
* C65: `20 * measurement_period` is a 32-bit product; the accepted period 2^30 makes the
  remainder in `update()` a division by zero.
* C72: a type paired with itself is accepted in `update.double_vertex_update_pairs`; the
  insertion of such a pair always throws (the branch is not reached at this commit).
* C76: `make_quantum_numbers` calls `is_zero(site, site, flavor)` although the arguments are
  `(flavor, site, site)`; with different numbers of flavors and sites this leaves the table,
  with equal numbers it builds the wrong groups (C77).  The update manager would call it
  before the Green function is read.  Not reached while `n_multi_vertex_update` is 1.
* C77: the selection rule by quantum numbers excludes vertices with non-zero weight when a
  part between two groups has alpha not zero.
* C79: `count_valid_vertex_pair` writes elements of a vector that has only been reserved.
* C83: `dump` writes six digits; the time 1 - 2^-24 is printed as 1, so with beta = 1 the configuration
  that is read back has a vertex at beta, outside the range of the times.
* C86: the constructor accepts a negative `model.beta` if the table has the same, and interaction
  terms with alpha = 1, for which alpha/(alpha-1) does not exist (`C86_beta_refuted`, `C86_alpha_refuted`). A
  configuration file of weight zero is accepted too (`C86_weight_refuted`).
* C87: `sanity_check` does not check A^{-1}: outside a session it recomputes the matrix and only
  prints a deviation, inside a session it does not look at it (`C87_inverse_refuted`).
* C88: `permutation(N, k)` returns 1 instead of 0 for k >= N+2 (unsigned wrap) and never ends for the
  largest N (`C88_counts_refuted`, `C88_ends_refuted`).
* C89: `update.n_multi_vertex_update` is ignored: moves have one vertex, and a list of as many rates as
  it asks for is refused unless it is one (`C89_multi_refuted`); the list of vertex types announced for
  shifts is always empty (`C89_shift_refuted`).
* C94: `my_rdiff` (src/util.h) has the return type bool and returns 1 for any two different numbers.
* C81: a cutoff of at most two bins is never changed by `update_cutoff`, whatever is recorded: the
  first of the four quarters contains no bin centre and hence never reaches the 100 samples.
* C61: linear `set_points` on an object that held a cubic spline leaves the last
  curvature in place; the extrapolation on the right is then not linear.
* C07, C54: `safe_inverse` and `lu_product` on an empty matrix are undefined
  behaviour.

## Trusted base

* Coq 8.16.1's kernel, and mathcomp 1.x (algebra, zify, algebra-tactics) as libraries.
* `Print Assumptions` under every theorem of `Prop_*.v` prints "Closed under the
  global context" unless the table below says otherwise.  `coqchk` and `vcheck` list
  further constants of the loaded libraries (sealed constants of mathcomp modules,
  primitive integers and floats of the standard library).  They belong to library files
  that are loaded; no theorem here depends on them as axioms.
* That the model definitions say what the cited lines do; simplifications are in the
  comment of each definition.

| theorems | axioms |
|----------|--------|
| all so far | none |

### Code that is modelled

| source | model |
|--------|-------|
| `include/alps/fastupdate/detail/util.hpp` (sorting, signs) | `SortModel.v` |
| `detail/util.hpp` (scaled determinant and inverse), `resizable_matrix.hpp` | `RmatModel.v` |
| `detail/clustering.hpp` | `ClusterModel.v` |
| `detail/fastupdate_formula.ipp` | `FormulaModel.v` |
| `determinant_matrix.hpp`, `detail/determinant_matrix*.ipp` | `DetMatModel.v` |
| `determinant_matrix_partitioned.hpp`, `.ipp` | `PartModel.v` |
| `compute_determinant_as_product` of both | `ProdModel.v` |
| `src/fastupdate_formula.h` | `SrcFormulaModel.v` |
| `src/green_function.h` | `GreenModel.v`, `GreenTableModel.v`, `GroupModel.v` |
| `src/spline.h` | `SplineModel.v` |
| `src/submatrix.hpp`, `src/submatrix_impl/*.ipp` | `SubModel.v` |
| `src/U_matrix.h` (input, containers, selection), `src/util.h` (list helpers) | `UMatModel.v` |
| `src/update_manager.hpp`, `src/interaction_expansion.ipp: compute_weight` | `ManModel.v` |
| `src/update_manager.hpp`, `src/U_matrix.h`, `src/util.h`: moves of two vertices (not reached at this commit) | `PairModel.v` |
| `src/green_function.h: make_quantum_numbers` (not reached at this commit) | `QnModel.v` |
| `src/U_matrix.h: non_density_type_in_window`, pairs and vertices in a window (not reached at this commit) | `WinModel.v` |
| `src/update_statistics.h: update_cutoff, update_proposer` (not reached at this commit) | `CutModel.v` |
| `src/fastupdate_formula.h: compute_inverse_matrix_replace_rows_cols_succesive, compute_inverse_matrix_replace_single_row_col` (not called at this commit) | `SuccModel.v` |
| `src/interaction_expansion.ipp: InteractionExpansion (constructor)`, `src/U_matrix.h: general_U_matrix (constructor)` | `StartModel.v` |
| `src/submatrix_impl/*.ipp: sanity_check` (debug build), `src/util.h: my_equal` | `SanityModel.v` |
| `src/util.h: permutation` | `PermModel.v` |
| `src/update_manager.hpp: VertexUpdateManager (constructor: types, shifts, rates)` | `SetupModel.v` |
| `src/update_manager.hpp: use of random numbers (index, time, shifted time)` | `RunModel.v` |
| `src/operator.hpp`, `src/util.h: is_identity, my_rdiff`, `src/update_statistics.h: compute_spread` (not called at this commit) | `SpreadModel.v` |
| `src/hdf5/boost_any.hpp` | `AnyModel.v` |
| `src/submatrix_impl/invA.ipp: compute_M (assertions), compute_f_prod`, `src/submatrix.hpp: InvAMatrixFlavors::determinant` (the last two not called at this commit) | `CheckMModel.v` |
| `src/postprocess.hpp: evaluate_selfenergy_measurement_legendre` (the call and the recording, `measurement.ipp:159-176`, are comments at this commit) | `SlDirectModel.v` |
| `src/legendre.h` | `LegendreModel.v` |
| `src/measurement.ipp: compute_Stau, measure_densities` | `BinModel.v`, `DensModel.v` |
| `src/measurement.ipp: measure_Sl, compute_Sl, compute_Sl_optimized`, `src/postprocess.hpp: evaluate_selfenergy_measurement_binning` | `SlModel.v` |
| `src/measurement.ipp: measure_observables` | `OrderModel.v`, `MeasModel.v` |
| `src/update_statistics.h`, `src/interaction_expansion.hpp: histogram` | `HistModel.v` |
| `src/interaction_expansion.hpp: run`, `.ipp: update, measure, fraction_completed` | `ProgModel.v` |

### Code that is not modelled

* Eigen's algorithms (LU, inverse, products), LAPACK and BLAS calls: replaced by their
  mathematical results.
* ALPSCore: parameters, accumulators, archives, MPI transport, random number generators,
  the schedule checker.
* Rounding, except in C47 and C64.
* Output on the terminal, timing, and the writing of result files.
