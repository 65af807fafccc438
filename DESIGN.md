# Design: Coq model of pytspl

Source: `/repo` (irtazahashmi/pytspl), read as text, never run.
Prover: Coq 8.16.1 with mathcomp 1.x, real-closed and mathcomp-zify as installed in the sandbox.

## 1. Two layers

**Layer 1 - executable, Stdlib style.**  Control flow, index arithmetic, dictionaries, tables and
integer matrices.  Python exceptions are values of `res A := Ok a | Raise e`; every branch that raises
in Python raises in the model, with the same exception class.  Node ids are `Z`; numpy's wrap-around of
negative indices is modelled.  `B1`, `B2`, the adjacency matrix and the Laplacians hold whole numbers
(stored as floats, exactly), so they are integer arrays (`arr2`) here.

**Layer 2 - mathcomp.**  Everything with real-valued signals.  Floats are idealised as an arbitrary
ordered field (`R : realFieldType`), or an arbitrary real closed field (`R : rcfType`) where square roots
or eigenvalues are needed.  Theorems quantify over `R`, so they hold in particular for the real
numbers, without assuming the axioms of Coq's reals.  Rounding of float arithmetic is outside the model.
Divisions by zero are explicit (`NonFinite`, or the values `NaN`/`PInf` where the code stores them).
`Bridge.v` maps the integer arrays of layer 1 to `'M[R]`.

**Oracles.**  Calls that leave the package are *arguments* of the model functions, constrained by
contracts that appear as theorem hypotheses, never as axioms (section 5).  Each contract is met by a
construction in the development, so no theorem is vacuous.

## 2. Layout of `rocq/theories`

* Model files (definitions only; each cites file and lines in `/repo`): `Complex`, `Builder`, `Signal`,
  `Eigen`, `Filter`, `FilterState`, `Trend`, `Reader`, `Loader`, `Generator`, `Sharing`, `Gp`, `Plot`.
  `Py.v` gives the meaning of the Python and numpy built-ins they use.
* `*Spec.v`: small specifications that do not use model helpers.  Some specifications needed by one
  property only (for instance `picture`, `well_placed`, `trend_cost`) stand in its `Props_` file.
* `*Facts.v`, `LinAlg`, `Spectral`, `IntEigen`, `Bridge`, `Compute`, `RingTac`, `ExampleData`: lemmas and
  example data.
* `Props_*.v`: the property theorems `Cnn_...`, with examples meeting the hypotheses and `Print
  Assumptions`.

## 3. Properties

For each property: what is modelled and how it is proved, the theorems (exact names) and the file they are in.
Statements are in `properties.jsonl`.  A theorem whose name ends in `_refuted` shows that a claim the code,
its documentation or its tests suggest is false of the code as written; see section 4.

**C01 - Node-edge incidence matrix entries.**  The constructor's fold over the edges writing -1 and +1 into an integer array with numpy's negative-index wrap-around. Induction over the edge list with an invariant on the columns written so far; the self-loop case (second write overwrites the first) is the refutation of 'every column sums to 0'.
Theorems: `C01_incidence_entries`, `C01_incidence_proper`, `C01_self_loop_refuted` (`Props_Complex.v`).

**C02 - Exactly which inputs the constructor accepts.**  The whole constructor in the error monad, exceptions as values. The success condition and both failing conditions are characterised by an iff each, and C02_outcomes shows no other outcome exists.
Theorems: `C02_accepts_iff`, `C02_index_error_iff`, `C02_value_error_iff`, `C02_outcomes` (`Props_Complex.v`).

**C03 - Edge-triangle incidence matrix entries.**  `edges.index` with its try/except fallback to the reversed pair, and three array writes per triangle. Stated through `stored_at` (first position of the pair in either direction), independent of the model's lookup.
Theorems: `C03_triangle_column`, `C03_triangle_signs` (`Props_Complex.v`).

**C04 - The boundary of a boundary is zero exactly when triangles are coherently oriented.**  Product of the two integer arrays of the model. Case analysis on the stored direction of the three edges (`coherent`); the refutation is the filled triangle with the edge between 1 and 2 stored as (2,1).
Theorems: `C04_boundary_zero_iff`, `C04_boundary_zero_refuted` (`Props_Complex.v`).

**C05 - Triangle enumeration is sound, complete and duplicate free.**  networkx's `enumerate_all_cliques` is modelled as its own algorithm (nodes in order of first mention, later-neighbour sets, breadth-first queue of base and candidate lists); the fuel is proved sufficient (`bfs_fuel`). Soundness, completeness, no repetition and order of the result against the independent `three_clique`.
Theorems: `C05_exactly_the_three_cliques`, `C05_presentation_independent`, `C05_enumeration_order` (`Props_Builder.v`).

**C06 - Building with all triangles yields a closed complex and never fails.**  `to_simplicial_complex` branch by branch. Uses C02, C04 and C05; the chain-complex law holds for ascending edges and is refuted in general.
Theorems: `C06_all_triangles`, `C06_all_triangles_fails_iff`, `C06_given_triangles`, `C06_given_triangles_succeeds_iff`, `C06_ascending_chain_complex`, `C06_chain_complex_refuted` (`Props_Builder.v`).

**C07 - Distance-based triangle selection.**  Python's short-circuit `and` on float truth values, dictionary lookups raising KeyError, comparison with the threshold (TypeError for strings). List induction; the two documented-condition gaps are refutations.
Theorems: `C07_selection`, `C07_any_other_condition`, `C07_missing_key`, `C07_text_distance`, `C07_documented_condition_refuted`, `C07_descending_edge_refuted` (`Props_Builder.v`).

**C08 - shape, simplices and max_dim agree.**  Record projections and `max` of the simplex sizes. Direct.
Theorems: `C08_simplices`, `C08_max_dim` (`Props_Complex.v`).

**C09 - get_faces returns exactly the codimension-one faces.**  `itertools.combinations`, sorting, a set of tuples, length filter. Against the independent `facet` (delete one vertex, sort); lexicographic order by `StronglySorted`.
Theorems: `C09_faces`, `C09_faces_ordered`, `C09_faces_count`, `C09_faces_order_independent` (`Props_Complex.v`).

**C10 - Adjacency matrix.**  The loop over the columns of B1 with `np.where(...)[0]` unpacked by index. Failure iff some column has fewer than two non-zero entries, i.e. a self-loop.
Theorems: `C10_adjacency_failure_iff`, `C10_adjacency_entries` (`Props_Complex.v`).

**C11 - Node Laplacian is degree minus adjacency.**  `B1 @ B1.T` on integer arrays. Sums over the edge list, counted with `touchesb`/`joinsb` of the specification.
Theorems: `C11_node_laplacian`, `C11_degree_minus_adjacency` (`Props_Complex.v`).

**C12 - Lower edge Laplacian entries.**  `B1.T @ B1`. Entry formula by case analysis on shared endpoints.
Theorems: `C12_lower_laplacian_entries` (`Props_Complex.v`).

**C13 - Upper edge Laplacian entries.**  `B2 @ B2.T` and `B2.T @ B2`. Entry formula through `tri_sign` of the specification.
Theorems: `C13_upper_laplacian_entries`, `C13_triangle_laplacian_diagonal` (`Props_Complex.v`).

**C14 - All Laplacians are symmetric positive semidefinite.**  Integer Laplacians of the model, flows over any ordered field. Each Laplacian is a sum of Gram matrices B B'; a quadratic form of one is a sum of squares.
Theorems: `C14_symmetric_psd`, `C14_quadratic_forms` (`Props_Signal.v`).

**C15 - Hodge Laplacian splits, with rank checks and mutual annihilation.**  Rank dispatch with exceptions. Annihilation: with N = B1 B2, L1L L1U = 0 gives (N'N)(N'N) = 0 and twice the lemma 'N'N = 0 implies N = 0' over the rationals.
Theorems: `C15_hodge_splits`, `C15_ranks`, `C15_rank0`, `C15_hodge_rank2_refuted`, `C15_annihilation_iff` (`Props_Complex.v`, `Props_Signal.v`).

**C16 - Shifting operators.**  Both branches of the `steps` test and the length check of the sparse product. Refuted: 'number of times to apply' for 0 and 3 steps.
Theorems: `C16_steps`, `C16_wrong_length`, `C16_linear`, `C16_documented_count_refuted` (`Props_Signal.v`).

**C17 - Divergence and curl formulas.**  `B1 @ f`, `B2.T @ f` with the length check. Against `net_inflow` and `around`, which mention only the edge list.
Theorems: `C17_divergence`, `C17_curl`, `C17_linear`, `C17_wrong_length` (`Props_Signal.v`).

**C18 - Gradient flows are curl free and curl flows are divergence free.**  Against `potential_diff` and `circulation`. Both directions: unit potentials / unit triangle signals detect an incoherent triangle.
Theorems: `C18_curl_grad_iff`, `C18_div_circulation_iff` (`Props_Signal.v`).

**C19 - Hodge decomposition: sum, membership, orthogonality.**  `get_component_flow` with `np.linalg.lstsq` as an argument; its contract is only that the returned vector minimises the residual (the normal equations are derived). Orthogonality from B1 B2 = 0.
Theorems: `C19_decomposition`, `C19_orthogonal` (`Props_Hodge.v`).

**C20 - The decomposition is canonical.**  Same model, arbitrary solver meeting the contract. Orthogonal-projection argument (LinAlg.v: the fitted part of a least-squares solution is unique, also for rank-deficient matrices).
Theorems: `C20_solver_independent`, `C20_unique`, `C20_linear`, `C20_projections`, `C20_closest` (`Props_Hodge.v`).

**C21 - Energy splits over the components.**  Pythagoras on C19.
Theorems: `C21_energy` (`Props_Hodge.v`).

**C22 - Orientation matters: decomposition on incoherent complexes.**  Concrete complexes (filled triangle with one edge turned; the complex `read_tntp` builds from a table). The values of the components are computed once and hold for every solver meeting the contract by C20.
Theorems: `C22_incoherent_refuted`, `C22_reader_refuted` (`Props_Hodge.v`, `Props_ReaderHodge.v`).

**C23 - Rounding of components.**  `np.round` as `rint(x * 10^d) / 10^d` with the contract of `rint` (nearest, ties to even). Triangle inequality; exact equality refuted on a concrete flow.
Theorems: `C23_rounding`, `C23_rounded_sum_refuted` (`Props_Hodge.v`).

**C24 - Component names.**  String dispatch of both methods. Computation plus case analysis on string equality.
Theorems: `C24_eigenpair_component_names`, `C24_flow_component_names` (`Props_Eigen.v`, `Props_Hodge.v`).

**C25 - Component eigenpairs are eigenpairs of the right subspace.**  `eigsh` as an argument with the contract 'n orthonormal eigenpairs in ascending order' for a symmetric matrix; clearing of values below machine epsilon; tolerance filters with the exact comparison used (`>` for gradient, `>=` for curl, `<=` for harmonic). An eigenvector for a non-zero eigenvalue lies in the image of the matrix. The default tolerances are written out in the statements (2^-52 for np.finfo(float).eps, 1/1000 for 1e-3), here and in every later theorem that mentions them.
Theorems: `C25_gradient_eigenpairs`, `C25_curl_eigenpairs`, `C25_harmonic_eigenpairs` (`Props_Eigen.v`).

**C26 - Component eigenvectors are orthonormal across components.**  Same. Gradient and curl eigenvectors are orthogonal because the Laplacians annihilate each other, eigenvectors of a symmetric matrix for different eigenvalues are orthogonal. IntEigen.v shows that an integer matrix has no proper-fraction eigenvalue, so the default 1e-3 needs no hypothesis.
Theorems: `C26_orthonormal_each`, `C26_curl_gradient_orthonormal`, `C26_orthonormal_all`, `C26_eigenvalue_tolerance_refuted` (`Props_Eigen.v`).

**C27 - Component dimensions add up.**  Same. Characteristic polynomials: for A B = 0 the one of A + B times X^n is the product of the two, so the eigenvalue lists match up to order (Spectral.v).
Theorems: `C27_dimensions` (`Props_Eigen.v`).

**C28 - Simplicial embeddings lose nothing.**  Parseval for the family of C26.
Theorems: `C28_embeddings` (`Props_Eigen.v`).

**C29 - Spectral and least-squares components agree.**  Projection on an orthonormal family spanning the image equals the least-squares projection of C20.
Theorems: `C29_spectral_equals_least_squares` (`Props_Eigen.v`).

**C30 - Total variance.**  Matrices carry a dense/sparse tag, `isinstance` test as in the code. Method: AssertionError for every input; module function: u' L u of an orthonormal eigenbasis.
Theorems: `C30_method_always_fails`, `C30_total_variance_function` (`Props_Eigen.v`).

**C31 - Component masks partition the spectrum.**  Mask writing by slices, `argsort` as an argument with the contract 'permutation that sorts'. Counting argument on C27.
Theorems: `C31_masks_partition`, `C31_rejections` (`Props_Masks.v`).

**C32 - Masks are aligned with the Hodge spectrum, so the ideal filter extracts the component.**  `U diag(mask) U'`. With gradient and curl spectra disjoint the mask selects whole eigenspaces; shared eigenvalue: filled triangle, where an admissible eigensolver makes the filter wrong.
Theorems: `C32_ideal_filter_harmonic`, `C32_ideal_filter_gradient_curl`, `C32_shared_eigenvalue_refuted` (`Props_Masks.v`).

**C33 - Low-pass denoising solves its regularised problem.**  `inv(I + mu P)` by mathcomp's `invmx`, LinAlgError when singular. Positive definiteness; strict convexity of the cost.
Theorems: `C33_lowpass_is_regularised_minimiser` (`Props_LowPass.v`).

**C34 - Low-pass denoising never amplifies and keeps the kernel.**  The loop over `mu_vals` with the stored arrays, including the UnboundLocalError of an empty list. Eigenbasis of P from the solver contract.
Theorems: `C34_lowpass_run`, `C34_rejections` (`Props_LowPass.v`).

**C35 - LS and grid filters are polynomials in the chosen Laplacian.**  The Vandermonde system matrix filled column by column, `lstsq` with the minimum-norm contract (so unused columns get coefficient 0), matrix powers; LS designs on the eigenvalues, grid designs on the sampled grid. Induction on the number of coefficients.
Theorems: `C35_grid_runs_complete`, `C35_ls_type_one`, `C35_ls_type_two`, `C35_grid_denoise`, `C35_grid_extraction`, `C35_polynomial_filters_keep_components`, `C35_rejections` (`Props_Grid.v`, `Props_Poly.v`).

**C36 - Type-two LS extraction is exact at full size, but only for singular Laplacians.**  With at most L distinct eigenvalues an interpolating polynomial exists, so the least-squares residual is 0 and the filter is the wanted 0/1 function of the Laplacian. Non-singular Laplacian: the smallest eigenvalue gets target 0.
Theorems: `C36_type_two_exact`, `C36_nonsingular_laplacian_loses_a_mode`, `C36_one_edge_refuted` (`Props_Exact.v`).

**C37 - General filters split the flow.**  Both `general_filter` methods on the object state. Algebra on C35; completion conditions are proved too.
Theorems: `C37_ls_parts`, `C37_grid_parts`, `C37_completes`, `C37_ls_exact` (`Props_State.v`).

**C38 - History of the general filter keeps both runs apart - LS yes, grid no.**  The history is an explicit heap of dictionaries and the object holds an address, so aliasing is visible. Symbolic execution of the two methods.
Theorems: `C38_ls_keeps_both_runs`, `C38_grid_one_dictionary`, `C38_grid_gradient_run_lost`, `C38_grid_keeps_both_runs_refuted` (`Props_State.v`, `Props_StateEx.v`).

**C39 - History after any sequence of calls.**  State machine over the public calls of the four filter classes (`exec`, `exec_all`). Invariants by induction over the call sequence, any length.
Theorems: `C39_history_is_the_last_run`, `C39_rejected_component_wipes_history`, `C39_failed_run_changes_nothing`, `C39_ls_histories_are_persistent`, `C39_one_dictionary_for_all_runs`, `C39_grid_stale_entries` (`Props_State.v`).

**C40 - Grid samples and low-pass response.**  `np.linspace` and the response formula; the end point is the mean quotient of the power iterate. Order reasoning.
Theorems: `C40_grid_samples`, `C40_low_pass_response` (`Props_Power.v`).

**C41 - Power iteration.**  The loop with an explicit outcome for division by a zero norm. Closed form of the iterate, Rayleigh quotients by Cauchy-Schwarz on powers of a PSD matrix; a path graph refutes 'largest eigenvalue'.
Theorems: `C41_power_iteration_value`, `C41_rayleigh_quotients`, `C41_equal_row_sums`, `C41_estimates_largest_eigenvalue_refuted`, `C41_no_triangles` (`Props_Power.v`).

**C42 - Chebyshev filter is the truncated Chebyshev series.**  Three-term matrix recurrence and the weighted sum; the coefficients (chebfun) are an argument. Induction on the order; the cosine form is stated with unit complex numbers over the real closed field (real part of z^k), not with the real cosine, so that no axiom is needed.
Theorems: `C42_truncated_series`, `C42_other_shapes` (`Props_Cheb.v`).

**C43 - Chebyshev filter stack indexing.**  The slice assignment `H[k-1:] = ...` with the negative slice start of k = 0, `np.squeeze` included. Induction on the number of assignments; `apply` evaluated on top of C42.
Theorems: `C43_stack`, `C43_position_is_order_refuted`, `C43_apply`, `C43_single_edge_rejected` (`Props_Cheb.v`).

**C44 - NRMSE.**  Norm quotient with `fl` outcomes finite / infinite / not a number.
Theorems: `C44_nrmse` (`Props_Power.v`).

**C45 - Logistic cut-off.**  Over an abstract exponential (positive, strictly increasing, 1 at 0, exp(-x) inverse to exp(x)) and once more over the standard library's reals, where the limits are proved; only the latter uses axioms. `C45_odds` and `C45_odds_real` give the odds g/(1-g) = exp(steep (x - c)), which fix the response at every point; they were added because symmetry, monotonicity and the value at the cut-off leave the shape open.
Theorems: `C45_logistic`, `C45_negative_steepness`, `C45_odds`, `C45_logistic_real`, `C45_odds_real`, `C45_logistic_limits` (`Props_Logistic.v`, `Props_LogisticR.v`).

**C46 - Trend-filter shift operators alternate boundary and coboundary.**  Powers of integer arrays (`csr ** k`), parity branches. Kernel of `(B'B)^k` equals kernel of B over an ordered field.
Theorems: `C46_orders`, `C46_kernel` (`Props_Trend.v`).

**C47 - The l2 trend filter ignores the requested component.**  `denoising_l2_regularizer` with the noise as an argument. The resolvent acts as the identity on the kernel of L1L and commutes with it; the curl statement is refuted on a concrete flow.
Theorems: `C47_l2_estimates`, `C47_component_ignored`, `C47_rejections`, `C47_curl_is_regularised_refuted` (`Props_Trend2.v`, `Props_TrendEx.v`).

**C48 - Interpolation keeps the observed edges.**  `np.random.choice`, `int` and the cvxpy solver as arguments (solver: feasible and minimal for the stated objective). Feasibility gives the observed edges; comparing with the masked flow gives the rest.
Theorems: `C48_observed_edges_kept`, `C48_unobserved_edges`, `C48_ratios` (`Props_Trend3.v`).

**C49 - l1 trend filtering does not worsen the regulariser.**  cvxpy solver as an argmin argument. Optimality inequality; Cauchy-Schwarz row by row.
Theorems: `C49_l1_estimates` (`Props_Trend3.v`).

**C50 - Noise power.**  Power of ten as an argument (positive, increasing, 1 at 0). Scalar algebra.
Theorems: `C50_power_noise`, `C50_energy_of_the_noise` (`Props_Trend2.v`).

**C51 - Reading an edge table.**  pandas frames as lists of rows of cells with column names; `int()` on cells (numbers truncate, texts through an argument `atoi`). List induction; the meaning is stated by `network_of`.
Theorems: `C51_column_names`, `C51_network_meaning`, `C51_read_csv`, `C51_read_tntp`, `C51_rejections` (`Props_Reader.v`).

**C52 - Row order does not change the network.**  Permutation of rows on C51.
Theorems: `C52_row_order` (`Props_Reader.v`).

**C53 - One-based tables.**  Same model with `start_index_zero` both ways; the -1 endpoint via C02's wrap-around.
Theorems: `C53_one_based_is_decremented`, `C53_zero_id` (`Props_Reader.v`).

**C54 - Edge features belong to their edge only for sorted duplicate-free tables.**  Position-wise feature assignment. Sorted tables: sorting is the identity; refuted on the bundled paper data.
Theorems: `C54_features_by_position`, `C54_sorted_tables`, `C54_own_row_refuted`, `C54_tntp_features_by_position` (`Props_Reader.v`).

**C55 - read_csv needs feature_cols.**  `len(None)` as TypeError before anything else is returned.
Theorems: `C55_feature_cols`, `C55_default_never_works` (`Props_Reader.v`).

**C56 - Incidence-matrix round trip.**  Edges of columns by `np.where(...)[0]`, sorting of the edges, triangles from the non-zero entries of a row of B2. Round trip by C01/C03 on sorted edges; two refutations.
Theorems: `C56_columns`, `C56_signs_ignored`, `C56_round_trip`, `C56_unsorted_columns_refuted`, `C56_isolated_last_node_refuted` (`Props_Incidence.v`).

**C57 - Reading coordinates.**  Name stripping, `df[col] - 1`, `dict(zip(...))` (last key wins), None for a missing file.
Theorems: `C57_coordinates`, `C57_completes` (`Props_Reader.v`).

**C58 - Net transportation flow.**  The visited set exactly as in the code (0-based added, 1-based tested); first matching row, a missing opposite row counts as 0. Invariant of the fold over the edge list.
Theorems: `C58_net_flow`, `C58_ascending`, `C58_no_file`, `C58_unsorted_refuted` (`Props_Loader.v`).

**C59 - Dataset dispatch.**  The file system (listing, tables, existence) is an argument; registry dispatch; the asserts of load_dataset. Case analysis; the loaders' own results come from C51-C58. `C59_paper`, `C59_incidence_files` and `C59_wsn` state what the individual loaders return in terms of the file contents.
Theorems: `C59_listing`, `C59_dispatch`, `C59_no_folder`, `C59_transportation_loads`, `C59_transportation_coordinates`, `C59_forex_flow`, `C59_missing_file`, `C59_paper`, `C59_incidence_files`, `C59_wsn` (`Props_Dataset.v`, `Props_Dataset2.v`).

**C60 - Random complexes.**  Draws, weights and the layout are arguments; the seed fixes only the draws. List induction; the chain-complex law from C06.
Theorems: `C60_edges`, `C60_monotone_in_p`, `C60_random_complex`, `C60_monotone_in_threshold`, `C60_same_seed_refuted` (`Props_Generator.v`).

**C61 - GP kernels give symmetric positive semidefinite covariance.**  Kernels as records of hyperparameters and eigenpairs; `exp`, `pow` and the constraint's transform as arguments with contracts. Sum of weighted outer products with nonnegative weights.
Theorems: `C61_positive_semidefinite`, `C61_entries`, `C61_spectrum`, `C61_non_hc_ignored` (`Props_Gp.v`).

**C62 - GP kernel call conventions.**  `x2.long()` before the None test: AttributeError.
Theorems: `C62_diagonal`, `C62_default_never_works` (`Props_Gp.v`).

**C63 - Kernel selection.**  String dispatch, six names of the enum against the five entries of the dictionary.
Theorems: `C63_serialize` (`Props_Gp.v`).

**C64 - Target normalisation.**  Mean and square root of the sample variance; a zero or undefined deviation is NonFinite. Field algebra.
Theorems: `C64_normalize`, `C64_constant` (`Props_GpData.v`).

**C65 - Train/test split.**  scikit-learn's split: the permutation is an argument, the sizes are those of scikit-learn for a float train_size. Permutation reasoning.
Theorems: `C65_split`, `C65_rejects` (`Props_GpData.v`).

**C66 - The trained model of a trainer.**  Trainer as a state machine over train / predict / get_model_parameters / build_matern_kernel with an optional model attribute; the optimisation step is an argument. Induction over the call sequence.
Theorems: `C66_untrained`, `C66_trained`, `C66_parameters` (`Props_GpTrainer.v`).

**C67 - Matern kernel matrix of the trainer.**  Matrix assembled as in the code from the eigenpairs of C25. Spectral argument with the orthonormal basis of C26/C27; difference from MaternNonHC's own covariance refuted on an example.
Theorems: `C67_matern_matrix`, `C67_prior_covariance`, `C67_non_hc_refuted` (`Props_GpMatern.v`).

**C68 - Keywords of draw_network.**  `signature(...).parameters` as lists of names, keyword sets, forwarding; a keyword passed twice is a TypeError. Unfolding and list reasoning.
Theorems: `C68_unknown_keyword`, `C68_forwarding` (`Props_Plot.v`).

**C69 - Edge colours match edges.**  networkx `DiGraph` edge order (by source in order of first mention, then insertion) and the re-indexing by `edges.index`. List reasoning.
Theorems: `C69_flow_colours`, `C69_colour_list`, `C69_empty_flow`, `C69_empty_string`, `C69_colour_names_refuted` (`Props_PlotFlow.v`).

**C70 - Eigenvector plots.**  Grid arithmetic, panel loop, titles, rounding in the drawing monad of Plot.v. Symbolic execution; arithmetic by lia.
Theorems: `C70_panels`, `C70_nothing`, `C70_unknown` (`Props_PlotFlow.v`).

**C71 - Edge label positions.**  The branches of the position formula over an ordered field. `C71_cases` gives the position in each of the four cases by explicit formulas. Case analysis.
Theorems: `C71_cases`, `C71_direction`, `C71_near_midpoint`, `C71_moved` (`Props_Plot.v`).

**C72 - Drawing with and without coordinates.**  `_init_axes` with and without coordinates, position lookup raising KeyError; the spring layout is an argument that gives a position to each node of the graph.
Theorems: `C72_without_coordinates`, `C72_generated`, `C72_with_coordinates` (`Props_PlotAxes.v`).

**C73 - Feature access.**  Dictionary comprehension over the edge features. `C73_stored_features` links the getters to the arguments of the constructor.
Theorems: `C73_feature_by_name`, `C73_feature_default`, `C73_stored_features` (`Props_Complex.v`).

**C74 - Shared default feature dictionaries.**  Heap of dictionaries in which the default arguments are allocated once; all programs of constructor calls, conversions and writes. Invariant by induction over the program. `C74_defaults_are_distinct` separates the four default dictionaries.
Theorems: `C74_defaults_are_shared`, `C74_write_is_visible`, `C74_complex_shares_with_builder`, `C74_frame`, `C74_defaults_are_distinct`, `C74_independent_builders_refuted` (`Props_Sharing.v`).

**C75 - What the history plots show.**  The two plot routines read the history of C39. Composition of C34, C43 and C39.
Theorems: `C75_plots_refuse_without_run`, `C75_edge_plot`, `C75_cheb_plot` (`Props_HistPlot.v`).

**C76 - Trend filter history: last completed call, honest summaries.**  Trend filter object as a state machine; correlation as covariance over the product of standard deviations with non-finite outcomes. Cauchy-Schwarz with equality case.
Theorems: `C76_correlation`, `C76_history_entries`, `C76_history_is_last_completed_call` (`Props_Trend2.v`).

**C77 - Kernel hyperparameters.**  gpytorch Positive constraint: raw value through softplus, setter through its inverse. `C77_names` lists the names that each class declares literally.
Theorems: `C77_names`, `C77_hyperparameters` (`Props_Gp.v`).

**C78 - Training mode.**  Training flag of the model in the trainer state machine of C66, with a log of the mode of every optimisation step. `C78_steps` counts the steps: the other theorems speak about the steps that are run.
Theorems: `C78_mode_after_predict`, `C78_mode_before_predict`, `C78_steps`, `C78_training_mode_refuted` (`Props_GpTrainer.v`).

**C79 - Trainer data and prior.**  Matrices of Complex.v handed over; prior mean and covariance of ExactGPModel. Unfolding.
Theorems: `C79_trainer_matrices`, `C79_eigenpairs_and_prior` (`Props_GpTrainer.v`).

**C80 - Axes used by a drawing.**  Drawing monad: current axes, axes counter, emitted commands. Invariant of the emitted commands, routine by routine.
Theorems: `C80_axes`, `C80_current_axes`, `C80_hodge_panels`, `C80_eigenvector_panels`, `C80_node_labels_refuted` (`Props_PlotAxes.v`).

**C81 - Drawn points and axis limits.**  Same; positions are kept in the object; limits as computed in `_init_axes`. `C81_limits` shows that the limits are set by the first command on the given axes (the other theorems quantify over the commands and would allow there to be none).
Theorems: `C81_coordinates`, `C81_inside`, `C81_layout_kept`, `C81_limits` (`Props_PlotAxes.v`).

**C82 - Drawing a flow array.**  `dict(zip(edges, flow))`, then the exact list of commands of draw_network against the independent `picture`.
Theorems: `C82_flow_dictionary`, `C82_edges_argument`, `C82_picture` (`Props_PlotFlow.v`).

**C83 - Hodge decomposition plot.**  `get_component_flow` for the three names before anything is drawn, then one panel each, against `panel`.
Theorems: `C83_three_panels`, `C83_sum`, `C83_one_panel`, `C83_no_component` (`Props_PlotFlow.v`).

**C84 - What each Hodge component knows about a flow.**  Same model as C19. Both solvers' results are orthogonal projections onto the images of B1^T and B2, and a projection is determined by the transposed matrix times the vector.
Theorems: `C84_divergence_and_curl_carried`, `C84_determined_by_divergence`, `C84_kinds_of_flow` (`Props_Topology.v`).

**C85 - Eigenpair counts are the topology of the complex, but not at the default tolerance.**  Same model as C25; connected components are specified by walks (TopologySpec.v). Their existence is by the reachability relation on the nodes; the rank of B1 plus the number of components is the number of nodes (kernel of B1^T = functions constant on components); the gap bound follows a shortest walk between two nodes of opposite sign (GapFacts.v). The refutation bounds the Rayleigh quotient of the constant flow on a path.
Theorems: `C85_components_exist`, `C85_gradient_count`, `C85_euler_count`, `C85_forest`, `C85_spectral_gap`, `C85_default_tolerance_small_graphs`, `C85_default_tolerance_refuted` (`Props_Topology.v`).

**C86 - Order, numbering and direction do not matter, except for the curl.**  The two incidence matrices of the second description are those of the first, multiplied by row selections (or signed selections) that are orthogonal; least-squares projections, shifts, divergence and curl are carried along by that. The curl part fails because `triangles_to_B2` looks an edge up in either direction and sets the same sign.
Theorems: `C86_order`, `C86_renumbering`, `C86_reversal`, `C86_reversal_of_curl_refuted` (`Props_Reorder.v`).

**C87 - Gaussian process predictions and their metrics.**  `posterior` conditions the prior of C61 on the training labels in exact arithmetic (matrix inverse), `observed` adds the noise, `predict` the metrics. Specified by a linear system with a unique solution, by optimality among linear predictors and by ridge regression; proofs by completing the square in block matrices.
Theorems: `C87_predictive`, `C87_determined`, `C87_covariance`, `C87_best`, `C87_span`, `C87_accepts`, `C87_metrics`, `C87_r2_coincides`, `C87_r2_refuted` (`Props_GpPredict.v`).

**C88 - What the Chebyshev filter computes: interpolation of the logistic cut-off.**  `_get_chebyshev_series` calls an oracle `chebfun` with the logistic function of C45; its contract (values at the real parts of roots of unity) is met by Lagrange interpolation in the Chebyshev basis (ChebSeries). That there are n such points, hence uniqueness, is proved by counting roots of unity. The plot is modelled by the arrays given to `plt.scatter`.
Theorems: `C88_points`, `C88_filter_interpolates_logistic`, `C88_divergence_free_flow_is_kept`, `C88_plot`, `C88_other_parts_are_removed_refuted` (`Props_Series.v`).

**C89 - Filters are linear and act on each Hodge component separately.**  All methods loop over filter matrices that commute with the chosen Laplacian (`follows`); one lemma about that loop (`grun`) compares the runs on two flows. The Hodge projections commute with the three Laplacians when B1 B2 = 0. No contract on the eigensolver is needed.
Theorems: `C89_linear`, `C89_components`, `C89_chebyshev` (`Props_Linear.v`).

**C90 - What the low-pass filter keeps, and that it smooths more for larger mu.**  For two weights both estimates are images of one vector w under I + mu P; the three differences are then sums of nonnegative terms. The components that are kept are those whose projection annihilates P.
Theorems: `C90_lowpass_components`, `C90_lowpass_smoothing` (`Props_Linear.v`).

**C91 - Filters do not depend on how the network is written down, except for edge directions in the grid filter.**  The second run is conjugate to the first by a signed permutation matrix; polynomials, inverses, power iteration and fitted coefficients commute with it. Eigenvectors need not correspond: the responses are shown to depend on the eigenvalues only. The refutation computes the fitted constants on the path with three nodes.
Theorems: `C91_order`, `C91_chebyshev_order`, `C91_renumbering`, `C91_reversal`, `C91_grid_reversal_refuted` (`Props_FilterOrder.v`).

**C92 - Results do not depend on which eigenvectors the solver returns, except for the ideal filter.**  Sorted eigenvalue lists coincide by the characteristic polynomial; the sum of g(lambda) v v' over an orthonormal eigenbasis is shown to be the same matrix for every basis and every function g (including the selection of components by tolerance). Responses depend on the eigenvalues only. The refutation uses a solver that returns a mirrored basis for multiples of the identity.
Theorems: `C92_filters`, `C92_chebyshev`, `C92_kernels`, `C92_embeddings`, `C92_ideal_filter_refuted` (`Props_Solver.v`).

**C93 - Predictions depend on the observations, not on their order, and more observations never make them less certain.**  Model of C87. The posterior is characterised by solutions of the linear system of C87 (`posterior_by`); permuting the training pairs permutes the equations. For more data the variance is the minimum of a quadratic form over weights (`cov_min`), and padding weights with zeros gives the inequality; an observed edge uses the weights of that single observation.
Theorems: `C93_training_order`, `C93_test_edges`, `C93_test_order`, `C93_labels`, `C93_more_data`, `C93_observed_edge` (`Props_GpObs.v`).

**C94 - Gaussian processes do not depend on how the network is written down, except for edge directions.**  Model of C77 and C87. The Laplacians of the two complexes are conjugate by a signed permutation (C86); a matrix function of an eigenbasis is then conjugated too, whatever basis the solver returns (`families_turned`), so covariances agree entry by entry up to signs. Predictions are transported through the linear system of C87 (`solves_turn`, `combine_turn`). Findings: `C94_triangle_refuted` (the signs of B2 ignore the stored direction of edges, so lower and upper Laplacian no longer fit together), `C94_constant_refuted` (a constant mean is not a flow) and `C94_r2_refuted` (R2 is divided by the spread of the predictions, which is not invariant).
Theorems: `C94_order`, `C94_renumbering`, `C94_reversal`, `C94_r2_refuted`, `C94_constant_refuted`, `C94_triangle_refuted` (`Props_GpOrder.v`).

**C95 - Parts of a network that are not connected do not influence each other.**  The part is described by the matrix P that selects its edges. `part_setup` shows that incidence matrices, Laplacians and projections of whole and part satisfy `A' P = P A`; a function of A, written with any eigenbasis, then satisfies the same equation (`calc_part`), which gives zero covariances across parts (`calc_out`). Predictions: the solution of the linear system of C87, restricted to the observations in the part, solves the system of the part (`solves_kept`). Nodes outside the part are kept (with no edges) so that node numbers stay valid. Finding: `C95_grid_refuted` (the grid of the grid-based filter depends on the number of edges). `C95_l2_trend` compares runs of the l2 trend filter (any noise oracles whose samples correspond); finding `C95_l1_trend_refuted`: the objective `norm(y - x) + mu * norm1(S x)` (simplicial_trend_filter.py 80-82) does not split into a sum over the parts, so unconnected parts influence each other; it holds for every solver that returns a minimiser, and `solver_two` shows that such solvers complete the runs. `C95_trend_example` is the example for the l2 case.
Theorems: `C95_part`, `C95_signals`, `C95_lowpass`, `C95_gp`, `C95_grid_refuted`, `C95_l2_trend`, `C95_l1_trend_refuted` (`Props_Local.v`, `Props_LocalTrend.v`).

**C96 - The unit in which a flow is measured does not matter, except for rounded components.**  Statements compare whole results (`after g m` maps a successful result and keeps an exception), so error cases are included. The proofs push the factor through every step of the model (`mat_dot_scale`, `coeffs_scale`, `nrmse_scale`, ...). For the l1 problems only costs can be compared, as minimisers need not be unique. Finding: `C96_rounding_refuted` (components are rounded to two decimals whatever the unit).
Theorems: `C96_signals`, `C96_filters`, `C96_l2_trend`, `C96_l1_trend`, `C96_l1_interpolation`, `C96_gp_targets`, `C96_rounding_refuted` (`Props_Units.v`).

**C97 - What the weight of a trend filter does.**  The l1 penalty is exact: a pseudo-inverse of the shift operator bounds how far a flow is from its kernel (`exact_penalty`), and the nearest point of the kernel is the flow minus its gradient (curl) component, because every order of the shift operator has the same kernel (C46). The monotonicity statements are exchange arguments between two minimisers (`exchange`); the l2 ones come from `shift_mono` (C90). `C97_example` runs both l1 filters with a solver that is correct for small and for large weights (`solver_eq_big`).
Theorems: `C97_l1_large_weight`, `C97_l1_more_weight`, `C97_interpolation_more_weight`, `C97_interpolation_large_weight`, `C97_l2_weight` (`Props_TrendMu.v`).

**C98 - Trend filters do not depend on how the network is written down.**  The relation between two networks is a signed permutation of the edges (`moved`); it conjugates the lower Laplacian (`p_same`) and preserves the norms of every shift operator (`base_moved`), from which `l2_pair`, `l1_pair` and `interp_pair` follow; the theorems instantiate it with a reordering, a renumbering and a reversal. `equally_good` spells out what is proved of l1 estimates: equal cost of counterparts, equal cost of the two results, and results that are counterparts if the minimiser is unique. Finding (`C98_correlation_refuted`): the Pearson correlation subtracts means over edges, so it depends on the arbitrary direction of edges; on a path with a flow that is 1 on both edges it is nan, and 1 after turning one edge round, for every weight. `C98_example` runs all three filters on a triangle and on its reordered, renumbered and reversed versions.
Theorems: `C98_l2_order`, `C98_l1_order`, `C98_interpolation_order`, `C98_l2_renumbering`, `C98_l1_renumbering`, `C98_reversal`, `C98_correlation_refuted` (`Props_TrendOrder.v`, `Props_TrendOrder2.v`, `Props_TrendOrder3.v`).

**C99 - Shifts and polynomial filters are local; the low-pass filter is not, but its dependence decays.**  `share_node`, `share_triangle` and `near` define neighbouring edges from the edge and triangle lists alone; `hops` counts steps and `agree_near` says that two flows agree within a distance. `reaches d Q` (all non-zero entries of Q are within d steps) is shown for the Laplacians from their entry formulas (C12, C13) and carried through sums, products, powers, the Chebyshev recurrence and the slice assignment `H[k-1:] = ...`. Finding (`C99_lowpass_refuted`): the filter (I + mu P)^-1 has no such bound; on a path with d+2 edges the value of the flow on the last edge changes the estimate on the first one, for every mu > 0. `C99_example` runs a type-two filter, a Chebyshev filter and a shift on a cycle of four edges with two flows that differ on the opposite edge only. `C99_lowpass_decay` bounds the influence instead: with s = 1 + mu lam the solution y satisfies y = g/s + (mu/s)(lam I - P) y, unrolling this d times gives a polynomial of degree d in P plus a remainder, and |(lam I - P) v| <= lam |v| because P is a Gram matrix. `C99_row_sums` supplies a lam, and `C99_decay_example` applies both to the cycle of four edges.
Theorems: `C99_polynomial_filters`, `C99_chebyshev`, `C99_shifts`, `C99_lowpass_refuted`, `C99_lowpass_decay`, `C99_row_sums` (`Props_Hops.v`, `Props_Hops2.v`).

## 4. Findings

Places where the code, read as text, does not do what its documentation, its names or its error
messages say.  Each is a theorem (name in brackets).  None was confirmed by running the code.

Complexes
* `B1 @ B2 = 0` only if the triangles are coherently oriented (`C04_boundary_zero_refuted`,
  `C06_chain_complex_refuted`); the table reader can build such a complex, on which the Hodge
  decomposition is not orthogonal (`C22_incoherent_refuted`, `C22_reader_refuted`).
* A self-loop has the column +1 alone (`C01_self_loop_refuted`).
* Distance-based triangles: a distance 0 excludes a triangle, an edge stored descending raises KeyError
  (`C07_documented_condition_refuted`, `C07_descending_edge_refuted`).
* `hodge_laplacian_matrix(2)` raises ValueError although documented (`C15_hodge_rank2_refuted`).
* Every number of shifting steps other than 1 means 2 (`C16_documented_count_refuted`).
* Feature dictionaries are shared through default arguments (`C74_independent_builders_refuted`).

Decomposition and spectra
* Rounded components need not add up (`C23_rounded_sum_refuted`).
* Components are rounded to two decimals whatever the unit, so expressing a flow in another unit can remove it
  altogether (`C96_rounding_refuted`).
* A tolerance equal to an eigenvalue counts curl vectors as harmonic too
  (`C26_eigenvalue_tolerance_refuted`).
* The default tolerance 1e-3 of `get_component_eigenpair` is above the smallest positive eigenvalue of large
  sparse complexes: on a path of 2001 edges, a tree, gradient eigenpairs are lost and harmonic ones appear
  (`C85_default_tolerance_refuted`); up to 32 nodes it is safe (`C85_default_tolerance_small_graphs`).
* `SimplicialComplex.get_total_variance` always raises AssertionError (`C30_method_always_fails`).

Filters
* Curl, curl component and harmonic component depend on the direction in which an edge happens to be stored: reversing
  an edge and negating its flow gives another decomposition (`C86_reversal_of_curl_refuted`).
* A shared gradient/curl eigenvalue makes the ideal filter wrong (`C32_shared_eigenvalue_refuted`), and dependent on
  the basis the eigensolver happens to return (`C92_ideal_filter_refuted`).
* LS extraction of type two on a non-singular Laplacian removes its lowest mode (`C36_one_edge_refuted`).
* After the grid `general_filter` both history keys refer to one dictionary, so the gradient run is lost
  (`C38_grid_keeps_both_runs_refuted`); later runs keep its entries (`C39_grid_stale_entries`).
* A rejected LS type-two component wipes the history and drops a key
  (`C39_rejected_component_wipes_history`).
* Power iteration does not estimate the largest eigenvalue on a path graph
  (`C41_estimates_largest_eigenvalue_refuted`); without triangles "L1U" divides by zero
  (`C41_no_triangles`).
* The eigenvalue estimate starts from the all-ones flow, so the grid filter gives different results when an edge of the
  same network is stored in the other direction (`C91_grid_reversal_refuted`).
* The grid filter takes as many samples as the whole network has edges, so unconnected parts of a network influence each
  other (`C95_grid_refuted`).
* The low-pass filter is not local: an estimate depends on flows arbitrarily far away, unlike that of the polynomial
  filters (`C99_lowpass_refuted`).
* Position k of the Chebyshev stack holds min(k+2, m) terms (`C43_position_is_order_refuted`); complexes
  with one edge are rejected (`C43_single_edge_rejected`); "frequency_responses" holds coefficients of the
  estimate (`C75_cheb_plot`).
* The Chebyshev gradient filter does not remove flows without gradient part: they keep the factor
  1 / (1 + exp(steep cut_off)), about 0.27 with the defaults (`C88_divergence_free_flow_is_kept`,
  `C88_other_parts_are_removed_refuted`).
* The l2 trend filter ignores its component (`C47_curl_is_regularised_refuted`); no realisations raise
  UnboundLocalError (`C47_rejections`).
* The l1 objective uses an unsquared norm: a small weight returns the noisy flow itself
  (`C49_l1_estimates`) and interpolates nothing (`C48_unobserved_edges`); ratios slightly above 1 pass
  (`C48_ratios`).
* The same norm makes the l1 trend filter let unconnected parts of a network influence each other
  (`C95_l1_trend_refuted`).
* The reported correlation of an estimate depends on the directions in which edges happen to be stored
  (`C98_correlation_refuted`).
* The noise factor is used as an amplitude, not a power (`C50_energy_of_the_noise`).

Input
* `read_csv` without feature columns always raises (`C55_default_never_works`).
* Features are assigned by sorted position, not by row; wrong on the bundled paper data
  (`C54_own_row_refuted`).
* Id 0 in a table counted from one becomes the last node (`C53_zero_id`).
* Incidence files: unsorted columns give wrong triangles, trailing isolated nodes are lost, signs of B2
  are ignored (`C56_unsorted_columns_refuted`, `C56_isolated_last_node_refuted`, `C56_signs_ignored`).
* Transportation flow skips edges of unsorted lists (`C58_unsorted_refuted`).
* The third component returned for the water network is not a flow on the edges: it holds one head per entry of the head
  array followed by one head loss per pipe, so its length is not the number of edges (`C59_wsn`).
* The last.fm data cannot load without its B2 file, which the checkout lacks (`C59_missing_file`).
* The generator's seed fixes neither weights nor triangles (`C60_same_seed_refuted`).

Gaussian processes
* Kernel `forward` without x2 raises (`C62_default_never_works`); `laplacian_non_hc` is advertised but
  raises KeyError (`C63_serialize`); the non-HC kernels ignore most hyperparameters
  (`C61_non_hc_ignored`).
* Constant training targets normalise to non-finite values (`C64_constant`).
* Predictions depend on the stored direction of edges when a constant mean is used (`C94_constant_refuted`) or when there
  are triangles (`C94_triangle_refuted`); the reported R2 depends on it even without them (`C94_r2_refuted`).
* An untrained trainer raises AttributeError, not the intended ValueError (`C66_untrained`); parameters
  can be read for Matern kernels only, and "raw_" names hold constrained values (`C66_parameters`).
* `build_matern_kernel` on a MaternNonHC model differs from its covariance (`C67_non_hc_refuted`).
* Training after predict runs in evaluation mode (`C78_training_mode_refuted`).
* predict passes the arguments of torcheval's `r2_score(input, target)` in the wrong order, so the printed R2
  is not the coefficient of determination (`C87_r2_refuted`, `C87_r2_coincides`); with a single test edge
  it raises ValueError (`C87_accepts`).

Plotting
* Node labels go to the current axes, not the given ones (`C80_node_labels_refuted`).
* The keyword `edge_labels` is accepted, then raises TypeError (`C68_forwarding`).
* Edges coloured by name get each other's colours (`C69_colour_names_refuted`); an empty flow cannot be
  drawn (`C69_empty_flow`); flows of the wrong length are cut silently (`C82_flow_dictionary`).
* Without coordinates an isolated node raises KeyError (`C72_without_coordinates`); an empty eigenspace
  raises ZeroDivisionError (`C70_nothing`).

## 5. Trusted base

1. The Coq kernel, and the installed mathcomp, real-closed and zify libraries as compiled.
2. That the model says what the code does: the reading of Python, numpy, scipy, networkx, pandas,
   matplotlib, torch and gpytorch semantics written at each definition.  networkx, scikit-learn and
   gpytorch and torcheval behaviour is modelled from knowledge of those libraries; their sources are not in `/repo`.
3. The contracts, for theorems that have them as hypotheses:

| contract | file | says | met by |
|---|---|---|---|
| `lstsq_contract` | SignalSpec | minimises the residual | `ls_sol_ok` |
| `rint_contract` | SignalSpec | nearest integer, ties to even | `rint_rat_ok` |
| `eigsh_contract` | EigenSpec | n orthonormal eigenpairs, ascending, for symmetric matrices | `eigsh_ref_ok`, `eigsh_std_ok` |
| `lstsq_min_contract` | FilterSpec | residual minimiser of least norm | `ls_min_ok` |
| `argsort_contract` | FilterSpec | permutation that sorts | `argsort_ref_ok` |
| `exp_contract` | Props_Logistic | positive, increasing, 1 at 0, exp(-x) inverse | `exp_ref_ok` |
| `chebfun_contract` | ChebSeries | n coefficients; the series takes the given values at the n Chebyshev points | `chebfun_ref_ok` |
| `pow_contract` | Props_Trend2 | positive, increasing, 1 at 0 | `C50_example` |
| `solver_contract`, `solver_eq_contract`, `feasible_contract` | Props_Trend3 | a returned vector is optimal / feasible | `solver_ref_ok`, `solver_eq_ref_ok` |
| `floor_contract`, `choice_contract` | Props_Trend3 | integer part; distinct indices | `floor_ref_ok`, `choice_ref_ok` |
| `exp_contract`, `pow_contract`, `positive_contract` | GpSpec | positive values; transform with inverse | `grow_gt0`, `pow_ex_contract`, `grow_contract` |
| `spring_contract` | Props_Dataset | one position per node | `C59_example` |
| `layout_contract` | Props_PlotAxes | a position in [-1,1]^2 per node | `flat_layout_ok` |

   A float solver meets them only up to rounding; that gap is not covered.

### Code that is modelled

| file in `/repo/pytspl` | model |
|---|---|
| simplicial_complex/simplicial_complex.py | Complex, Signal, Eigen, Sharing |
| simplicial_complex/scbuilder.py | Builder, Sharing |
| decomposition/*.py | Signal, Eigen |
| filters/base_filter.py and the four filter classes | Filter, FilterState |
| filters/simplicial_trend_filter.py | Trend |
| io/network_reader.py | Reader |
| io/dataset_loader.py, io/data_loaders/*.py | Loader |
| io/sc_generator.py | Generator |
| hogde_gp/*.py, hogde_gp/forex/*.py | Gp, GpPredict |
| plot/plot.py | Plot |

### Code that is not modelled

* Rounding of float arithmetic, float32, overflow; two-dimensional flows.
* Parsing of files (`pd.read_csv`, the wsn archive): readers get parsed tables.
* The inside of chebpy's `chebfun` (contract `chebfun_contract`).
* The cvxpy call in `_solver`; convergence of any numerical solver.
* The optimisation step of GP training; the Lanczos approximation of gpytorch's `fast_pred_var` for more than
  800 training edges; the metrics MSLL and NLPD of `predict` (logarithms, only printed).
* `print_summary` apart from the exception of `max_dim`; other printing; constructors that only call their
  base class; the `covar_matrix` properties, which only return `_eval_covar_matrix`.
* matplotlib rendering, figure sizes, title fonts, ticks, `plt.show`, argument checks inside matplotlib.

### Assumptions

`Print Assumptions` was run on all 346 theorems named in `MANIFEST.json`; 343 are closed under the
global context.  The others use axioms of the Coq standard library's reals:

| axiom (Coq standard library) | theorems that list it |
|---|---|
| `ClassicalDedekindReals.sig_forall_dec` | `C45_logistic_real`, `C45_odds_real`, `C45_logistic_limits` |
| `ClassicalDedekindReals.sig_not_dec` | `C45_logistic_real`, `C45_odds_real`, `C45_logistic_limits` |
| `Classical_Prop.classic` | `C45_logistic_real`, `C45_logistic_limits` |
| `FunctionalExtensionality.functional_extensionality_dep` | `C45_logistic_real`, `C45_odds_real`, `C45_logistic_limits` |

`coqchk` additionally prints constants of mathcomp, ssreflect and Reals such as
`Rdefinitions.RbaseSymbolsImpl.Rplus_def` or `fintype.Finite.EnumDef.enum`.  They are defined behind sealed
module signatures, which is why the checker shows them as opaque; `Print Assumptions` does not list them.
The development declares no axiom of its own.

Per theorem:

| theorem | `Print Assumptions` |
|---|---|
| `C01_incidence_entries` | closed under the global context |
| `C01_incidence_proper` | closed under the global context |
| `C01_self_loop_refuted` | closed under the global context |
| `C02_accepts_iff` | closed under the global context |
| `C02_index_error_iff` | closed under the global context |
| `C02_value_error_iff` | closed under the global context |
| `C02_outcomes` | closed under the global context |
| `C03_triangle_column` | closed under the global context |
| `C03_triangle_signs` | closed under the global context |
| `C04_boundary_zero_iff` | closed under the global context |
| `C04_boundary_zero_refuted` | closed under the global context |
| `C05_exactly_the_three_cliques` | closed under the global context |
| `C05_presentation_independent` | closed under the global context |
| `C05_enumeration_order` | closed under the global context |
| `C06_all_triangles` | closed under the global context |
| `C06_all_triangles_fails_iff` | closed under the global context |
| `C06_given_triangles` | closed under the global context |
| `C06_given_triangles_succeeds_iff` | closed under the global context |
| `C06_ascending_chain_complex` | closed under the global context |
| `C06_chain_complex_refuted` | closed under the global context |
| `C07_selection` | closed under the global context |
| `C07_any_other_condition` | closed under the global context |
| `C07_missing_key` | closed under the global context |
| `C07_text_distance` | closed under the global context |
| `C07_documented_condition_refuted` | closed under the global context |
| `C07_descending_edge_refuted` | closed under the global context |
| `C08_simplices` | closed under the global context |
| `C08_max_dim` | closed under the global context |
| `C09_faces` | closed under the global context |
| `C09_faces_ordered` | closed under the global context |
| `C09_faces_count` | closed under the global context |
| `C09_faces_order_independent` | closed under the global context |
| `C10_adjacency_failure_iff` | closed under the global context |
| `C10_adjacency_entries` | closed under the global context |
| `C11_node_laplacian` | closed under the global context |
| `C11_degree_minus_adjacency` | closed under the global context |
| `C12_lower_laplacian_entries` | closed under the global context |
| `C13_upper_laplacian_entries` | closed under the global context |
| `C13_triangle_laplacian_diagonal` | closed under the global context |
| `C14_symmetric_psd` | closed under the global context |
| `C14_quadratic_forms` | closed under the global context |
| `C15_hodge_splits` | closed under the global context |
| `C15_ranks` | closed under the global context |
| `C15_rank0` | closed under the global context |
| `C15_hodge_rank2_refuted` | closed under the global context |
| `C15_annihilation_iff` | closed under the global context |
| `C16_steps` | closed under the global context |
| `C16_wrong_length` | closed under the global context |
| `C16_linear` | closed under the global context |
| `C16_documented_count_refuted` | closed under the global context |
| `C17_divergence` | closed under the global context |
| `C17_curl` | closed under the global context |
| `C17_linear` | closed under the global context |
| `C17_wrong_length` | closed under the global context |
| `C18_curl_grad_iff` | closed under the global context |
| `C18_div_circulation_iff` | closed under the global context |
| `C19_decomposition` | closed under the global context |
| `C19_orthogonal` | closed under the global context |
| `C20_solver_independent` | closed under the global context |
| `C20_unique` | closed under the global context |
| `C20_linear` | closed under the global context |
| `C20_projections` | closed under the global context |
| `C20_closest` | closed under the global context |
| `C21_energy` | closed under the global context |
| `C22_incoherent_refuted` | closed under the global context |
| `C22_reader_refuted` | closed under the global context |
| `C23_rounding` | closed under the global context |
| `C23_rounded_sum_refuted` | closed under the global context |
| `C24_eigenpair_component_names` | closed under the global context |
| `C24_flow_component_names` | closed under the global context |
| `C25_gradient_eigenpairs` | closed under the global context |
| `C25_curl_eigenpairs` | closed under the global context |
| `C25_harmonic_eigenpairs` | closed under the global context |
| `C26_orthonormal_each` | closed under the global context |
| `C26_curl_gradient_orthonormal` | closed under the global context |
| `C26_orthonormal_all` | closed under the global context |
| `C26_eigenvalue_tolerance_refuted` | closed under the global context |
| `C27_dimensions` | closed under the global context |
| `C28_embeddings` | closed under the global context |
| `C29_spectral_equals_least_squares` | closed under the global context |
| `C30_method_always_fails` | closed under the global context |
| `C30_total_variance_function` | closed under the global context |
| `C31_masks_partition` | closed under the global context |
| `C31_rejections` | closed under the global context |
| `C32_ideal_filter_harmonic` | closed under the global context |
| `C32_ideal_filter_gradient_curl` | closed under the global context |
| `C32_shared_eigenvalue_refuted` | closed under the global context |
| `C33_lowpass_is_regularised_minimiser` | closed under the global context |
| `C34_lowpass_run` | closed under the global context |
| `C34_rejections` | closed under the global context |
| `C35_grid_runs_complete` | closed under the global context |
| `C35_ls_type_one` | closed under the global context |
| `C35_ls_type_two` | closed under the global context |
| `C35_grid_denoise` | closed under the global context |
| `C35_grid_extraction` | closed under the global context |
| `C35_polynomial_filters_keep_components` | closed under the global context |
| `C35_rejections` | closed under the global context |
| `C36_type_two_exact` | closed under the global context |
| `C36_nonsingular_laplacian_loses_a_mode` | closed under the global context |
| `C36_one_edge_refuted` | closed under the global context |
| `C37_ls_parts` | closed under the global context |
| `C37_grid_parts` | closed under the global context |
| `C37_completes` | closed under the global context |
| `C37_ls_exact` | closed under the global context |
| `C38_ls_keeps_both_runs` | closed under the global context |
| `C38_grid_one_dictionary` | closed under the global context |
| `C38_grid_gradient_run_lost` | closed under the global context |
| `C38_grid_keeps_both_runs_refuted` | closed under the global context |
| `C39_history_is_the_last_run` | closed under the global context |
| `C39_rejected_component_wipes_history` | closed under the global context |
| `C39_failed_run_changes_nothing` | closed under the global context |
| `C39_ls_histories_are_persistent` | closed under the global context |
| `C39_one_dictionary_for_all_runs` | closed under the global context |
| `C39_grid_stale_entries` | closed under the global context |
| `C40_grid_samples` | closed under the global context |
| `C40_low_pass_response` | closed under the global context |
| `C41_power_iteration_value` | closed under the global context |
| `C41_rayleigh_quotients` | closed under the global context |
| `C41_equal_row_sums` | closed under the global context |
| `C41_estimates_largest_eigenvalue_refuted` | closed under the global context |
| `C41_no_triangles` | closed under the global context |
| `C42_truncated_series` | closed under the global context |
| `C42_other_shapes` | closed under the global context |
| `C43_stack` | closed under the global context |
| `C43_position_is_order_refuted` | closed under the global context |
| `C43_apply` | closed under the global context |
| `C43_single_edge_rejected` | closed under the global context |
| `C44_nrmse` | closed under the global context |
| `C45_logistic` | closed under the global context |
| `C45_negative_steepness` | closed under the global context |
| `C45_odds` | closed under the global context |
| `C45_logistic_real` | `ClassicalDedekindReals.sig_forall_dec`, `ClassicalDedekindReals.sig_not_dec`, `Classical_Prop.classic`, `FunctionalExtensionality.functional_extensionality_dep` |
| `C45_odds_real` | `ClassicalDedekindReals.sig_forall_dec`, `ClassicalDedekindReals.sig_not_dec`, `FunctionalExtensionality.functional_extensionality_dep` |
| `C45_logistic_limits` | `ClassicalDedekindReals.sig_forall_dec`, `ClassicalDedekindReals.sig_not_dec`, `Classical_Prop.classic`, `FunctionalExtensionality.functional_extensionality_dep` |
| `C46_orders` | closed under the global context |
| `C46_kernel` | closed under the global context |
| `C47_l2_estimates` | closed under the global context |
| `C47_component_ignored` | closed under the global context |
| `C47_rejections` | closed under the global context |
| `C47_curl_is_regularised_refuted` | closed under the global context |
| `C48_observed_edges_kept` | closed under the global context |
| `C48_unobserved_edges` | closed under the global context |
| `C48_ratios` | closed under the global context |
| `C49_l1_estimates` | closed under the global context |
| `C50_power_noise` | closed under the global context |
| `C50_energy_of_the_noise` | closed under the global context |
| `C51_column_names` | closed under the global context |
| `C51_network_meaning` | closed under the global context |
| `C51_read_csv` | closed under the global context |
| `C51_read_tntp` | closed under the global context |
| `C51_rejections` | closed under the global context |
| `C52_row_order` | closed under the global context |
| `C53_one_based_is_decremented` | closed under the global context |
| `C53_zero_id` | closed under the global context |
| `C54_features_by_position` | closed under the global context |
| `C54_sorted_tables` | closed under the global context |
| `C54_own_row_refuted` | closed under the global context |
| `C54_tntp_features_by_position` | closed under the global context |
| `C55_feature_cols` | closed under the global context |
| `C55_default_never_works` | closed under the global context |
| `C56_columns` | closed under the global context |
| `C56_signs_ignored` | closed under the global context |
| `C56_round_trip` | closed under the global context |
| `C56_unsorted_columns_refuted` | closed under the global context |
| `C56_isolated_last_node_refuted` | closed under the global context |
| `C57_coordinates` | closed under the global context |
| `C57_completes` | closed under the global context |
| `C58_net_flow` | closed under the global context |
| `C58_ascending` | closed under the global context |
| `C58_no_file` | closed under the global context |
| `C58_unsorted_refuted` | closed under the global context |
| `C59_listing` | closed under the global context |
| `C59_dispatch` | closed under the global context |
| `C59_no_folder` | closed under the global context |
| `C59_transportation_loads` | closed under the global context |
| `C59_transportation_coordinates` | closed under the global context |
| `C59_forex_flow` | closed under the global context |
| `C59_missing_file` | closed under the global context |
| `C59_paper` | closed under the global context |
| `C59_incidence_files` | closed under the global context |
| `C59_wsn` | closed under the global context |
| `C60_edges` | closed under the global context |
| `C60_monotone_in_p` | closed under the global context |
| `C60_random_complex` | closed under the global context |
| `C60_monotone_in_threshold` | closed under the global context |
| `C60_same_seed_refuted` | closed under the global context |
| `C61_positive_semidefinite` | closed under the global context |
| `C61_entries` | closed under the global context |
| `C61_spectrum` | closed under the global context |
| `C61_non_hc_ignored` | closed under the global context |
| `C62_diagonal` | closed under the global context |
| `C62_default_never_works` | closed under the global context |
| `C63_serialize` | closed under the global context |
| `C64_normalize` | closed under the global context |
| `C64_constant` | closed under the global context |
| `C65_split` | closed under the global context |
| `C65_rejects` | closed under the global context |
| `C66_untrained` | closed under the global context |
| `C66_trained` | closed under the global context |
| `C66_parameters` | closed under the global context |
| `C67_matern_matrix` | closed under the global context |
| `C67_prior_covariance` | closed under the global context |
| `C67_non_hc_refuted` | closed under the global context |
| `C68_unknown_keyword` | closed under the global context |
| `C68_forwarding` | closed under the global context |
| `C69_flow_colours` | closed under the global context |
| `C69_colour_list` | closed under the global context |
| `C69_empty_flow` | closed under the global context |
| `C69_empty_string` | closed under the global context |
| `C69_colour_names_refuted` | closed under the global context |
| `C70_panels` | closed under the global context |
| `C70_nothing` | closed under the global context |
| `C70_unknown` | closed under the global context |
| `C71_cases` | closed under the global context |
| `C71_direction` | closed under the global context |
| `C71_near_midpoint` | closed under the global context |
| `C71_moved` | closed under the global context |
| `C72_without_coordinates` | closed under the global context |
| `C72_generated` | closed under the global context |
| `C72_with_coordinates` | closed under the global context |
| `C73_feature_by_name` | closed under the global context |
| `C73_feature_default` | closed under the global context |
| `C73_stored_features` | closed under the global context |
| `C74_defaults_are_shared` | closed under the global context |
| `C74_write_is_visible` | closed under the global context |
| `C74_complex_shares_with_builder` | closed under the global context |
| `C74_frame` | closed under the global context |
| `C74_defaults_are_distinct` | closed under the global context |
| `C74_independent_builders_refuted` | closed under the global context |
| `C75_plots_refuse_without_run` | closed under the global context |
| `C75_edge_plot` | closed under the global context |
| `C75_cheb_plot` | closed under the global context |
| `C76_correlation` | closed under the global context |
| `C76_history_entries` | closed under the global context |
| `C76_history_is_last_completed_call` | closed under the global context |
| `C77_names` | closed under the global context |
| `C77_hyperparameters` | closed under the global context |
| `C78_mode_after_predict` | closed under the global context |
| `C78_mode_before_predict` | closed under the global context |
| `C78_steps` | closed under the global context |
| `C78_training_mode_refuted` | closed under the global context |
| `C79_trainer_matrices` | closed under the global context |
| `C79_eigenpairs_and_prior` | closed under the global context |
| `C80_axes` | closed under the global context |
| `C80_current_axes` | closed under the global context |
| `C80_hodge_panels` | closed under the global context |
| `C80_eigenvector_panels` | closed under the global context |
| `C80_node_labels_refuted` | closed under the global context |
| `C81_coordinates` | closed under the global context |
| `C81_inside` | closed under the global context |
| `C81_layout_kept` | closed under the global context |
| `C81_limits` | closed under the global context |
| `C82_flow_dictionary` | closed under the global context |
| `C82_edges_argument` | closed under the global context |
| `C82_picture` | closed under the global context |
| `C83_three_panels` | closed under the global context |
| `C83_sum` | closed under the global context |
| `C83_one_panel` | closed under the global context |
| `C83_no_component` | closed under the global context |
| `C84_divergence_and_curl_carried` | closed under the global context |
| `C84_determined_by_divergence` | closed under the global context |
| `C84_kinds_of_flow` | closed under the global context |
| `C85_components_exist` | closed under the global context |
| `C85_gradient_count` | closed under the global context |
| `C85_euler_count` | closed under the global context |
| `C85_forest` | closed under the global context |
| `C85_spectral_gap` | closed under the global context |
| `C85_default_tolerance_small_graphs` | closed under the global context |
| `C85_default_tolerance_refuted` | closed under the global context |
| `C86_order` | closed under the global context |
| `C86_renumbering` | closed under the global context |
| `C86_reversal` | closed under the global context |
| `C86_reversal_of_curl_refuted` | closed under the global context |
| `C87_predictive` | closed under the global context |
| `C87_determined` | closed under the global context |
| `C87_covariance` | closed under the global context |
| `C87_best` | closed under the global context |
| `C87_span` | closed under the global context |
| `C87_accepts` | closed under the global context |
| `C87_metrics` | closed under the global context |
| `C87_r2_coincides` | closed under the global context |
| `C87_r2_refuted` | closed under the global context |
| `C88_points` | closed under the global context |
| `C88_filter_interpolates_logistic` | closed under the global context |
| `C88_divergence_free_flow_is_kept` | closed under the global context |
| `C88_plot` | closed under the global context |
| `C88_other_parts_are_removed_refuted` | closed under the global context |
| `C89_linear` | closed under the global context |
| `C89_components` | closed under the global context |
| `C89_chebyshev` | closed under the global context |
| `C90_lowpass_components` | closed under the global context |
| `C90_lowpass_smoothing` | closed under the global context |
| `C91_order` | closed under the global context |
| `C91_chebyshev_order` | closed under the global context |
| `C91_renumbering` | closed under the global context |
| `C91_reversal` | closed under the global context |
| `C91_grid_reversal_refuted` | closed under the global context |
| `C92_filters` | closed under the global context |
| `C92_chebyshev` | closed under the global context |
| `C92_kernels` | closed under the global context |
| `C92_embeddings` | closed under the global context |
| `C92_ideal_filter_refuted` | closed under the global context |
| `C93_training_order` | closed under the global context |
| `C93_test_edges` | closed under the global context |
| `C93_test_order` | closed under the global context |
| `C93_labels` | closed under the global context |
| `C93_more_data` | closed under the global context |
| `C93_observed_edge` | closed under the global context |
| `C94_order` | closed under the global context |
| `C94_renumbering` | closed under the global context |
| `C94_reversal` | closed under the global context |
| `C94_r2_refuted` | closed under the global context |
| `C94_constant_refuted` | closed under the global context |
| `C94_triangle_refuted` | closed under the global context |
| `C95_part` | closed under the global context |
| `C95_signals` | closed under the global context |
| `C95_lowpass` | closed under the global context |
| `C95_gp` | closed under the global context |
| `C95_grid_refuted` | closed under the global context |
| `C95_l2_trend` | closed under the global context |
| `C95_l1_trend_refuted` | closed under the global context |
| `C96_signals` | closed under the global context |
| `C96_filters` | closed under the global context |
| `C96_l2_trend` | closed under the global context |
| `C96_l1_trend` | closed under the global context |
| `C96_l1_interpolation` | closed under the global context |
| `C96_gp_targets` | closed under the global context |
| `C96_rounding_refuted` | closed under the global context |
| `C97_l1_large_weight` | closed under the global context |
| `C97_l1_more_weight` | closed under the global context |
| `C97_interpolation_more_weight` | closed under the global context |
| `C97_interpolation_large_weight` | closed under the global context |
| `C97_l2_weight` | closed under the global context |
| `C98_l2_order` | closed under the global context |
| `C98_l1_order` | closed under the global context |
| `C98_interpolation_order` | closed under the global context |
| `C98_l2_renumbering` | closed under the global context |
| `C98_l1_renumbering` | closed under the global context |
| `C98_reversal` | closed under the global context |
| `C98_correlation_refuted` | closed under the global context |
| `C99_polynomial_filters` | closed under the global context |
| `C99_chebyshev` | closed under the global context |
| `C99_shifts` | closed under the global context |
| `C99_lowpass_refuted` | closed under the global context |
| `C99_lowpass_decay` | closed under the global context |
| `C99_row_sums` | closed under the global context |

## 6. Mutation testing

`seeded/LOG.jsonl` records each edit made to a scratch copy of the model, the claim it should break, the
theorems that failed and those that were tightened.

How to read `theorems_failed`: an entry `File.v:name` is the lemma or theorem whose proof no longer goes through.
Plain theorem names after it are the theorems of the claimed properties that could then not be built, because they are
in that file or in one that depends on it. They are unproved for the edited model; the log does not say that each of
them is false of it, and a proof script can also break on a statement that still holds. Where a statement was seen to
hold for a wrong model, the entry names the theorem that was tightened or added. An empty list is an edit that survived;
its `note` says why.

