{"id": "C01", "title": "Node-edge incidence matrix entries", "statement": "incidence_matrix(1) of a successfully constructed complex has one row per node and one column per edge; for an edge (u,v) with two different in-range endpoints its column is -1 at u, +1 at v and 0 elsewhere (so every column sums to 0). A self-loop column degenerates to a lone +1, and a negative endpoint denotes the node counted from the end.", "quantifier": "all node lists, all edge lists, all rows and columns", "why_tests_cant": "the entries must be right for every edge list of every size; a test inspects a handful of fixed graphs", "anchors": ["pytspl/simplicial_complex/simplicial_complex.py:SimplicialComplex.edges_to_B1", "pytspl/simplicial_complex/simplicial_complex.py:SimplicialComplex.incidence_matrix"]}
{"id": "C02", "title": "Exactly which inputs the constructor accepts", "statement": "SimplicialComplex(nodes, edges, triangles) succeeds iff every edge endpoint e satisfies -n <= e < n (n = number of nodes), every triangle has exactly three vertices, and each of its three vertex pairs occurs among the edges in one of the two directions; otherwise it raises IndexError (bad endpoint, checked first) or ValueError (bad triangle).", "quantifier": "all node, edge and triangle lists", "why_tests_cant": "acceptance is an iff over an unbounded input space", "anchors": ["pytspl/simplicial_complex/simplicial_complex.py:SimplicialComplex.__init__", "pytspl/simplicial_complex/simplicial_complex.py:SimplicialComplex.edges_to_B1", "pytspl/simplicial_complex/simplicial_complex.py:SimplicialComplex.triangles_to_B2"]}
{"id": "C03", "title": "Edge-triangle incidence matrix entries", "statement": "incidence_matrix(2) has one row per edge and one column per triangle; the column of a triangle (a,b,c) with distinct vertices is +1 at the edge joining a,b, +1 at the edge joining b,c, -1 at the edge joining a,c and 0 elsewhere, whichever way round those edges are stored.", "quantifier": "all complexes, all triangles", "why_tests_cant": "must hold for every triangle of every complex", "anchors": ["pytspl/simplicial_complex/simplicial_complex.py:SimplicialComplex.triangles_to_B2"]}
{"id": "C04", "title": "The boundary of a boundary is zero exactly when triangles are coherently oriented", "statement": "For a complex with in-range non-loop edges and triangles with distinct vertices, B1 @ B2 = 0 iff for every triangle (a,b,c) the stored edges are all three forward (a->b, b->c, a->c) or all three backward; the unconditional identity the tests and docs state is false of the code, which ignores the stored direction of an edge when it fills B2.", "quantifier": "all complexes", "why_tests_cant": "tests check the identity on one dataset whose edges happen to be oriented upward", "anchors": ["pytspl/simplicial_complex/simplicial_complex.py:SimplicialComplex.triangles_to_B2", "pytspl/simplicial_complex/simplicial_complex.py:SimplicialComplex.edges_to_B1", "tests/test_simplicial_complex.py:test_incidence_matrix"]}
{"id": "C05", "title": "Triangle enumeration is sound, complete and duplicate free", "statement": "SCBuilder.triangles() returns each 3-clique of the undirected graph of the edge list exactly once, as an ascending triple, and nothing else, regardless of edge order, edge direction, repeated edges or self-loops.", "quantifier": "all edge lists", "why_tests_cant": "completeness and uniqueness range over all graphs", "anchors": ["pytspl/simplicial_complex/scbuilder.py:SCBuilder.triangles"]}
{"id": "C06", "title": "Building with all triangles yields a closed complex and never fails", "statement": "If every edge endpoint is a valid node index, to_simplicial_complex() succeeds; the result keeps nodes, edges and features unchanged, its triangles are exactly the 3-cliques, and every edge of every triangle is an edge of the complex. Explicitly supplied triangles are used verbatim whatever the condition.", "quantifier": "all node and edge lists", "why_tests_cant": "absence of failure over all inputs", "anchors": ["pytspl/simplicial_complex/scbuilder.py:SCBuilder.to_simplicial_complex"]}
{"id": "C07", "title": "Distance-based triangle selection", "statement": "When every clique edge has its distance under its ascending key, triangles_dist_based(col, eps) returns exactly those 3-cliques, in enumeration order, whose three distances are all nonzero and < eps. Two gaps against the documented 'd < eps': a distance of exactly 0 excludes the triangle, and an edge stored in descending order makes the call raise KeyError. A missing distance raises KeyError and a distance given as (non-empty) text TypeError, whether or not the others are numbers or nan.", "quantifier": "all edge lists, feature dictionaries and thresholds", "why_tests_cant": "filter semantics over arbitrary features", "anchors": ["pytspl/simplicial_complex/scbuilder.py:SCBuilder.triangles_dist_based"]}
{"id": "C08", "title": "shape, simplices and max_dim agree", "statement": "simplices lists the nodes as singletons, then the edges, then the triangles, so its length is the sum of shape; max_dim is 2 if there is a triangle, else 1 if there is an edge, else 0 if there is a node, and ValueError for the empty complex.", "quantifier": "all constructed complexes", "why_tests_cant": "quantifies over all complexes", "anchors": ["pytspl/simplicial_complex/simplicial_complex.py:SimplicialComplex.simplices", "pytspl/simplicial_complex/simplicial_complex.py:SimplicialComplex.max_dim", "pytspl/simplicial_complex/simplicial_complex.py:SimplicialComplex.shape"]}
{"id": "C09", "title": "get_faces returns exactly the codimension-one faces", "statement": "get_faces(s) returns, in strictly ascending lexicographic order and without repetition, exactly the sorted tuples obtained by deleting one vertex of s (and [] for a simplex with at most one vertex); for a simplex with k+1 >= 2 distinct vertices there are exactly k+1 of them, and the result does not depend on the order of the vertices of s.", "quantifier": "all finite vertex sequences of any length", "why_tests_cant": "simplices of any dimension are accepted", "anchors": ["pytspl/simplicial_complex/simplicial_complex.py:SimplicialComplex.get_faces"]}
{"id": "C10", "title": "Adjacency matrix", "statement": "For a complex whose edges are in range and loop-free, adjacency_matrix() succeeds, is symmetric with zero diagonal and 0/1 entries, and has a 1 at (i,k) iff some edge joins i and k in either direction. A self-loop makes it raise IndexError.", "quantifier": "all complexes", "why_tests_cant": "entrywise iff over all graphs", "anchors": ["pytspl/simplicial_complex/simplicial_complex.py:SimplicialComplex.adjacency_matrix"]}
{"id": "C11", "title": "Node Laplacian is degree minus adjacency", "statement": "For loop-free in-range edges laplacian_matrix() has the number of incident edges on the diagonal and minus the number of edges joining i and k off it; its rows and columns sum to zero; for a simple graph it equals D - adjacency_matrix().", "quantifier": "all complexes", "why_tests_cant": "entrywise identity over all graphs", "anchors": ["pytspl/simplicial_complex/simplicial_complex.py:SimplicialComplex.laplacian_matrix"]}
{"id": "C12", "title": "Lower edge Laplacian entries", "statement": "For loop-free in-range edges lower_laplacian_matrix(1) has 2 on the diagonal; off it the entry is the signed number of shared endpoints: +1 for each shared endpoint met with the same role (both heads or both tails), -1 for each met head-to-tail.", "quantifier": "all complexes, all pairs of edges", "why_tests_cant": "entrywise identity over all graphs", "anchors": ["pytspl/simplicial_complex/simplicial_complex.py:SimplicialComplex.lower_laplacian_matrix"]}
{"id": "C13", "title": "Upper edge Laplacian entries", "statement": "upper_laplacian_matrix(1) has on the diagonal the number of triangles containing the edge, and off it the sum over common triangles of the product of the two incidence signs, so it is zero for edges sharing no triangle; lower_laplacian_matrix(2) has 3 on the diagonal.", "quantifier": "all complexes with distinct-vertex triangles and no repeated edge", "why_tests_cant": "entrywise identity over all complexes", "anchors": ["pytspl/simplicial_complex/simplicial_complex.py:SimplicialComplex.upper_laplacian_matrix", "pytspl/simplicial_complex/simplicial_complex.py:SimplicialComplex.lower_laplacian_matrix"]}
{"id": "C14", "title": "All Laplacians are symmetric positive semidefinite", "statement": "Every matrix returned by laplacian_matrix, lower_laplacian_matrix, upper_laplacian_matrix and hodge_laplacian_matrix is symmetric, and x.T L x is the squared norm of the corresponding (co)boundary of x, hence nonnegative, and zero exactly on its kernel.", "quantifier": "all complexes, all real vectors", "why_tests_cant": "universal over vectors", "anchors": ["pytspl/simplicial_complex/simplicial_complex.py:SimplicialComplex.hodge_laplacian_matrix", "pytspl/simplicial_complex/simplicial_complex.py:SimplicialComplex.laplacian_matrix"]}
{"id": "C15", "title": "Hodge Laplacian splits, with rank checks and mutual annihilation", "statement": "hodge_laplacian_matrix(1) = lower(1) + upper(1), rank 0 gives laplacian_matrix(), every other rank raises ValueError (including rank 2, which its docstring promises); lower accepts exactly 1,2 and upper exactly 0,1, incidence exactly 0,1,2. lower(1) @ upper(1) = 0 iff B1 @ B2 = 0. incidence_matrix(0) is a single row of ones, one per node; identity_matrix has one row per node and is neutral for the rank-0 Laplacian.", "quantifier": "all complexes and all integer ranks", "why_tests_cant": "all ranks, all complexes", "anchors": ["pytspl/simplicial_complex/simplicial_complex.py:SimplicialComplex.hodge_laplacian_matrix", "pytspl/simplicial_complex/simplicial_complex.py:SimplicialComplex.incidence_matrix"]}
{"id": "C16", "title": "Shifting operators", "statement": "apply_lower_shifting/apply_upper_shifting(flow, steps) apply the Laplacian once for steps=1 and exactly twice for every other value of steps; they are linear, and apply_k_step_shifting is the sum of the two. The documented 'number of times to apply' therefore holds for steps 1 and 2 only and is refuted for steps 0 and 3.", "quantifier": "all complexes, flows and step counts", "why_tests_cant": "all step counts and flows", "anchors": ["pytspl/simplicial_complex/simplicial_complex.py:SimplicialComplex.apply_lower_shifting", "pytspl/simplicial_complex/simplicial_complex.py:SimplicialComplex.apply_upper_shifting", "pytspl/simplicial_complex/simplicial_complex.py:SimplicialComplex.apply_k_step_shifting"]}
{"id": "C17", "title": "Divergence and curl formulas", "statement": "get_divergence(f) at node v is the sum of f over edges ending in v minus the sum over edges starting in v, and totals 0 over all nodes; get_curl(f) at triangle (a,b,c) is f[ab] + f[bc] - f[ac]; both are linear, and a flow of the wrong length raises ValueError.", "quantifier": "all loop-free complexes, all flows", "why_tests_cant": "real-valued flows of every size", "anchors": ["pytspl/simplicial_complex/simplicial_complex.py:SimplicialComplex.get_divergence", "pytspl/simplicial_complex/simplicial_complex.py:SimplicialComplex.get_curl", "pytspl/decomposition/eigendecomposition.py:get_divergence", "pytspl/decomposition/eigendecomposition.py:get_curl"]}
{"id": "C18", "title": "Gradient flows are curl free and curl flows are divergence free", "statement": "On a coherently oriented complex the curl of B1.T @ p is zero for every node potential p and the divergence of B2 @ w is zero for every triangle signal w, and conversely if either holds for all p (all w) the complex is coherently oriented.", "quantifier": "all complexes, potentials and triangle signals", "why_tests_cant": "universal over signals", "anchors": ["pytspl/simplicial_complex/simplicial_complex.py:SimplicialComplex.get_curl", "pytspl/simplicial_complex/simplicial_complex.py:SimplicialComplex.get_divergence"]}
{"id": "C19", "title": "Hodge decomposition: sum, membership, orthogonality", "statement": "For every flow f, the unrounded gradient, curl and harmonic flows returned by get_component_flow add up to f; the gradient flow is B1.T @ p for some p, the curl flow is B2 @ w for some w; on a coherently oriented complex the three are pairwise orthogonal and the harmonic flow has zero divergence and zero curl, i.e. lies in the kernel of hodge_laplacian_matrix(1).", "quantifier": "all complexes, all flows, any least-squares solver returning some least-squares solution", "why_tests_cant": "real-valued identity for every flow and complex", "anchors": ["pytspl/decomposition/hodge_decomposition.py:get_gradient_flow", "pytspl/decomposition/hodge_decomposition.py:get_curl_flow", "pytspl/decomposition/hodge_decomposition.py:get_harmonic_flow", "pytspl/simplicial_complex/simplicial_complex.py:SimplicialComplex.get_component_flow"]}
{"id": "C20", "title": "The decomposition is canonical", "statement": "The components do not depend on which least-squares solution the solver returns, are the unique triple with the properties of C19, are linear in the flow, idempotent (extracting the same component twice changes nothing) and mutually annihilating (extracting a different component of a component gives 0); each component is the closest flow to f in its subspace.", "quantifier": "all coherently oriented complexes, all flows, all solvers", "why_tests_cant": "uniqueness over all solvers", "anchors": ["pytspl/decomposition/hodge_decomposition.py:get_gradient_flow", "pytspl/decomposition/hodge_decomposition.py:get_curl_flow", "pytspl/decomposition/hodge_decomposition.py:get_harmonic_flow"]}
{"id": "C21", "title": "Energy splits over the components", "statement": "On a coherently oriented complex ||f||^2 = ||f_g||^2 + ||f_c||^2 + ||f_h||^2 for the unrounded components, so no component has more energy than the flow.", "quantifier": "all coherently oriented complexes, all flows", "why_tests_cant": "real-valued identity", "anchors": ["pytspl/simplicial_complex/simplicial_complex.py:SimplicialComplex.get_component_flow"]}
{"id": "C22", "title": "Orientation matters: decomposition on incoherent complexes", "statement": "There is a complex accepted by the constructor and produced by the library's own reader for which the three returned components are not orthogonal and the returned 'harmonic' flow is not in the kernel of the Hodge Laplacian.", "quantifier": "existential (a refutation of the unguarded C19)", "why_tests_cant": "shows the guard in C19 cannot be dropped; the fixtures all satisfy it", "anchors": ["pytspl/decomposition/hodge_decomposition.py:get_harmonic_flow", "pytspl/io/network_reader.py:_extract_nodes_edges"]}
{"id": "C23", "title": "Rounding of components", "statement": "With round_fig=True each returned entry is within half a unit of the d-th decimal of the unrounded one, so the three rounded components add up to the flow within 1.5 units of the d-th decimal, entrywise; with round_fig=False no rounding takes place; exact equality of the rounded sum with the flow is refuted.", "quantifier": "all flows, all decimal counts", "why_tests_cant": "bound for every real input", "anchors": ["pytspl/decomposition/hodge_decomposition.py:get_gradient_flow", "pytspl/decomposition/hodge_decomposition.py:get_curl_flow", "pytspl/decomposition/hodge_decomposition.py:get_harmonic_flow"]}
{"id": "C24", "title": "Component names", "statement": "get_component_flow and get_component_eigenpair accept exactly the strings 'gradient', 'curl' and 'harmonic' and raise ValueError for every other string.", "quantifier": "all strings", "why_tests_cant": "all strings", "anchors": ["pytspl/simplicial_complex/simplicial_complex.py:SimplicialComplex.get_component_flow", "pytspl/simplicial_complex/simplicial_complex.py:SimplicialComplex.get_component_eigenpair", "pytspl/decomposition/frequency_component.py:FrequencyComponent"]}
{"id": "C25", "title": "Component eigenpairs are eigenpairs of the right subspace", "statement": "Every returned gradient (curl) eigenpair is an eigenpair of the lower (upper) Laplacian with eigenvalue above (at least) the tolerance, its vector lies in the image of B1.T (of B2) and, on a coherently oriented complex, it is also an eigenpair of the Hodge Laplacian; if the tolerance is below every positive eigenvalue, the harmonic vectors lie in the kernel of the Hodge Laplacian.", "quantifier": "all complexes, all tolerances, any eigensolver meeting its contract", "why_tests_cant": "all complexes and solver choices", "anchors": ["pytspl/decomposition/eigendecomposition.py:get_gradient_eigenpair", "pytspl/decomposition/eigendecomposition.py:get_curl_eigenpair", "pytspl/decomposition/eigendecomposition.py:get_harmonic_eigenpair", "pytspl/simplicial_complex/simplicial_complex.py:SimplicialComplex.get_component_eigenpair"]}
{"id": "C26", "title": "Component eigenvectors are orthonormal across components", "statement": "The eigenvectors returned for each component are orthonormal. On a coherently oriented complex the harmonic, curl and gradient eigenvectors returned for one tolerance t >= machine eps are together an orthonormal family, unless t is itself an upper-Laplacian eigenvalue (which no non-integer fraction, in particular the default 1e-3, can be); for t an eigenvalue the curl vectors are returned twice.", "quantifier": "all coherently oriented complexes and tolerances", "why_tests_cant": "solver-independent", "anchors": ["pytspl/decomposition/eigendecomposition.py:get_gradient_eigenpair", "pytspl/decomposition/eigendecomposition.py:get_curl_eigenpair", "pytspl/decomposition/eigendecomposition.py:get_harmonic_eigenpair"]}
{"id": "C27", "title": "Component dimensions add up", "statement": "On a coherently oriented complex the numbers of harmonic, curl and gradient eigenpairs for one tolerance t >= machine eps add up to the number of edges plus the number of upper-Laplacian eigenvalues exactly equal to t; so they add up to the number of edges unless t is itself an eigenvalue.", "quantifier": "all coherently oriented complexes and tolerances", "why_tests_cant": "multiplicity statement for every complex", "anchors": ["pytspl/decomposition/eigendecomposition.py:get_gradient_eigenpair", "pytspl/decomposition/eigendecomposition.py:get_curl_eigenpair", "pytspl/decomposition/eigendecomposition.py:get_harmonic_eigenpair"]}
{"id": "C28", "title": "Simplicial embeddings lose nothing", "statement": "get_simplicial_embeddings(f) has squared entries adding up to ||f||^2 and f is recovered as the combination of the eigenvectors weighted by the embeddings, on every coherently oriented complex with at least one edge (the fixed tolerance 1e-3 is a fraction and so never an eigenvalue of an integer matrix); a flow of any other length is rejected with ValueError.", "quantifier": "all coherently oriented complexes, all flows, any eigensolver meeting its contract", "why_tests_cant": "Parseval identity for all flows", "anchors": ["pytspl/simplicial_complex/simplicial_complex.py:SimplicialComplex.get_simplicial_embeddings"]}
{"id": "C29", "title": "Spectral and least-squares components agree", "statement": "If the tolerance is below every positive eigenvalue, projecting f on the gradient (curl, harmonic) eigenvectors gives exactly the unrounded gradient (curl, harmonic) flow returned by get_component_flow.", "quantifier": "all coherently oriented complexes, all flows, all solvers", "why_tests_cant": "agreement of two independent code paths", "anchors": ["pytspl/simplicial_complex/simplicial_complex.py:SimplicialComplex.get_component_eigenpair", "pytspl/simplicial_complex/simplicial_complex.py:SimplicialComplex.get_component_flow"]}
{"id": "C30", "title": "Total variance", "statement": "SimplicialComplex.get_total_variance() raises AssertionError for every complex, because it hands a sparse matrix to a routine that asserts a dense one; the module function on the dense Laplacian returns its eigenvalues in solver order.", "quantifier": "all complexes", "why_tests_cant": "universal failure; the method has no test", "anchors": ["pytspl/simplicial_complex/simplicial_complex.py:SimplicialComplex.get_total_variance", "pytspl/decomposition/eigendecomposition.py:get_total_variance", "pytspl/decomposition/eigendecomposition.py:get_eigendecomposition"]}
{"id": "C31", "title": "Component masks partition the spectrum", "statement": "On a coherently oriented complex (tolerance 1e-3 not an eigenvalue) get_component_coefficients returns 0/1 vectors of length number-of-edges for 'harmonic', 'curl' and 'gradient' that sum to the all-ones vector, with as many ones as there are eigenpairs of that component, whichever permutation argsort picks among ties; any other component name raises ValueError.", "quantifier": "all coherently oriented complexes", "why_tests_cant": "partition for every complex and tie-break", "anchors": ["pytspl/filters/base_filter.py:BaseFilter.get_component_coefficients"]}
{"id": "C32", "title": "Masks are aligned with the Hodge spectrum, so the ideal filter extracts the component", "statement": "If moreover no gradient eigenvalue coincides with a curl eigenvalue, get_ideal_frequency(mask) applied to any flow returns its exact component; when the two spectra share an eigenvalue this fails (refuted on a concrete complex).", "quantifier": "all coherently oriented complexes, all flows", "why_tests_cant": "tie behaviour is data dependent", "anchors": ["pytspl/filters/base_filter.py:BaseFilter.get_component_coefficients", "pytspl/filters/chebyshev_filter_design.py:ChebyshevFilterDesign.get_ideal_frequency"]}
{"id": "C33", "title": "Low-pass denoising solves its regularised problem", "statement": "For mu >= 0 and P any of L1, L1L, L1U the matrix I + mu P is invertible, and the estimate EdgeFlowDenoising stores for the last mu is the unique minimiser of ||f - x||^2 + mu x.T P x.", "quantifier": "all complexes, flows and mu >= 0", "why_tests_cant": "optimality over all competitors", "anchors": ["pytspl/filters/edge_flow_denoising.py:EdgeFlowDenoising.denoise"]}
{"id": "C34", "title": "Low-pass denoising never amplifies and keeps the kernel", "statement": "For mu >= 0 the stored estimate satisfies ||f_est|| <= ||f||, f.T f_est >= 0, leaves flows with P f = 0 unchanged, has frequency response 1/(1+mu lambda_i) in the stored matrix, and the stored filter and estimate belong to the last mu while errors and responses have one entry per mu; an empty mu list raises UnboundLocalError.", "quantifier": "all complexes, flows, lists of mu >= 0", "why_tests_cant": "inequalities over reals", "anchors": ["pytspl/filters/edge_flow_denoising.py:EdgeFlowDenoising.denoise"]}
{"id": "C35", "title": "LS and grid filters are polynomials in the chosen Laplacian", "statement": "The filter stored by the LS and grid designs is sum_i h_i P^i with at most L coefficients; it is symmetric, commutes with P, its stored frequency response at eigenvector u_i is the polynomial at lambda_i, and the stored estimate is the filter applied to f; it never moves a flow out of an invariant component (gradient stays gradient for P = L1L). L = 0 raises UnboundLocalError.", "quantifier": "all complexes, flows, filter sizes, all least-squares solvers", "why_tests_cant": "polynomial identity for all sizes", "anchors": ["pytspl/filters/ls_filter_design.py:LSFilterDesign._apply_filter", "pytspl/filters/grid_based_filter_design.py:GridBasedFilterDesign._apply_filter"]}
{"id": "C36", "title": "Type-two LS extraction is exact at full size, but only for singular Laplacians", "statement": "If the chosen Laplacian has 0 as an eigenvalue and L is at least its number of distinct eigenvalues, subcomponent_extraction_type_two returns exactly the gradient (curl) component; if 0 is not an eigenvalue (e.g. the complex is a forest) the smallest eigenvalue is wrongly zeroed and the result is wrong (refuted on the one-edge complex).", "quantifier": "all complexes, all flows, all L at least the number of distinct eigenvalues", "why_tests_cant": "exactness for all flows; the counterexample class is absent from the fixtures", "anchors": ["pytspl/filters/ls_filter_design.py:LSFilterDesign.subcomponent_extraction_type_two"]}
{"id": "C37", "title": "General filters split the flow", "statement": "The three arrays returned by general_filter (LS and grid) add up to the input flow for all L1, L2 (including 0, where the corresponding part is 0).", "quantifier": "all flows, L1, L2", "why_tests_cant": "identity over all flows", "anchors": ["pytspl/filters/ls_filter_design.py:LSFilterDesign.general_filter", "pytspl/filters/grid_based_filter_design.py:GridBasedFilterDesign.general_filter"]}
{"id": "C38", "title": "History of the general filter keeps both runs apart - LS yes, grid no", "statement": "After LSFilterDesign.general_filter with L1, L2 > 0, history['L1'] holds the gradient run and history['L2'] the curl run; after GridBasedFilterDesign.general_filter both keys denote the same dictionary holding the curl run, so the gradient filter is lost.", "quantifier": "all runs, from any reachable filter state", "why_tests_cant": "aliasing between Python dictionaries over call histories", "anchors": ["pytspl/filters/ls_filter_design.py:LSFilterDesign.general_filter", "pytspl/filters/grid_based_filter_design.py:GridBasedFilterDesign.general_filter", "pytspl/filters/base_filter.py:BaseFilter.set_history", "pytspl/filters/base_filter.py:BaseFilter._reset_history"]}
{"id": "C39", "title": "History after any sequence of calls", "statement": "After any sequence of filter calls whose last call is a completed extraction or denoising run, the history holds exactly that run's filter, estimate, responses and errors. A rejected type-two component name (ValueError) nevertheless wipes the previous results and removes the frequency_responses key.", "quantifier": "all call sequences on one filter object", "why_tests_cant": "state-machine statement over all histories", "anchors": ["pytspl/filters/base_filter.py:BaseFilter.set_history", "pytspl/filters/base_filter.py:BaseFilter._reset_history", "pytspl/filters/ls_filter_design.py:LSFilterDesign.subcomponent_extraction_type_two"]}
{"id": "C40", "title": "Grid samples and low-pass response", "statement": "The sampled grid has num_of_samples points running evenly from 0 to the estimated largest eigenvalue (just [0] for one sample); the low-pass response 1/(1+mu x) lies in (0,1] and is nonincreasing on them for mu >= 0 and a nonnegative estimate.", "quantifier": "all sample counts and estimates", "why_tests_cant": "all counts", "anchors": ["pytspl/filters/grid_based_filter_design.py:GridBasedFilterDesign._sample_grid_points", "pytspl/filters/grid_based_filter_design.py:GridBasedFilterDesign._compute_frequency_response_hp"]}
{"id": "C41", "title": "Power iteration", "statement": "power_iteration(P, k) returns P^k 1 / ||P^k 1|| + eps whenever P^k 1 is nonzero (P symmetric PSD: iff P 1 is nonzero), and its Rayleigh quotient before the eps shift never exceeds the largest eigenvalue and never decreases with k. If P 1 = 0 (e.g. a directed 3-cycle, or L1U without triangles) it divides by zero. The claim that it approximates the largest eigenvalue is refuted when 1 is orthogonal to the top eigenvectors.", "quantifier": "all symmetric PSD matrices and iteration counts", "why_tests_cant": "all matrices, all k", "anchors": ["pytspl/filters/base_filter.py:BaseFilter.power_iteration", "pytspl/filters/chebyshev_filter_design.py:ChebyshevFilterDesign.get_alpha"]}
{"id": "C42", "title": "Chebyshev filter is the truncated Chebyshev series", "statement": "The approximate filter of order m built from coefficients c and alpha <> 0 equals sum_{k<m} c_k T_k((P - alpha I)/alpha) with T_k the Chebyshev polynomials; on an eigenvector of P with eigenvalue lam it acts as the scalar sum c_k T_k((lam-alpha)/alpha), which is sum c_k cos(k theta) when lam = alpha(1+cos theta).", "quantifier": "all matrices, coefficient arrays, orders", "why_tests_cant": "all orders", "anchors": ["pytspl/filters/chebyshev_filter_design.py:ChebyshevFilterDesign._chebyshev_filter_approximate"]}
{"id": "C43", "title": "Chebyshev filter stack indexing", "statement": "get_chebyshev_frequency_approx(order=m) returns a stack whose entry k is the order min(k+2, m) approximation (for m >= 2), so the last entry is the full-order filter but entry k is not the order k+1 filter its position promises.", "quantifier": "all orders m >= 1", "why_tests_cant": "index arithmetic for all orders; tests only read the last entry", "anchors": ["pytspl/filters/chebyshev_filter_design.py:ChebyshevFilterDesign.get_chebyshev_frequency_approx", "pytspl/filters/chebyshev_filter_design.py:ChebyshevFilterDesign.apply"]}
{"id": "C44", "title": "NRMSE", "statement": "calculate_error_NRMSE(x, t) for t <> 0 is nonnegative, zero iff x = t, invariant under scaling both by the same nonzero factor, and 1 for x = 0; for t = 0 it is not a number or infinite.", "quantifier": "all vectors", "why_tests_cant": "all real vectors", "anchors": ["pytspl/filters/base_filter.py:BaseFilter.calculate_error_NRMSE"]}
{"id": "C45", "title": "Logistic cut-off", "statement": "For steep > 0 the logistic response is strictly between 0 and 1, strictly increasing, equals 1/2 at the cut-off and satisfies g(c+d) + g(c-d) = 1. Its odds g(x) / (1 - g(x)) are exp(steep * (x - c)), which determines it.", "quantifier": "all real frequencies and parameters", "why_tests_cant": "all reals", "anchors": ["pytspl/filters/base_filter.py:BaseFilter.logistic_function"]}
{"id": "C46", "title": "Trend-filter shift operators alternate boundary and coboundary", "statement": "get_shift_operator(c, k) raises ValueError for k < 0; for every k >= 0 the order k+1 operator is the order k operator premultiplied by B1.T or B1 alternately (B2 / B2.T for curl), and for every order its kernel is exactly the divergence-free (curl-free) flows.", "quantifier": "all complexes, all orders", "why_tests_cant": "induction over orders, kernel equality over all flows", "anchors": ["pytspl/filters/simplicial_trend_filter.py:SimplicialTrendFilter.get_shift_operator"]}
{"id": "C47", "title": "The l2 trend filter ignores the requested component", "statement": "denoising_l2_regularizer produces the same filter and estimates for component 'divergence' and 'curl': always (I + mu L1L)^{-1}, which shrinks divergence and leaves the divergence-free part of the noisy flow untouched; regularising the curl as documented is refuted.", "quantifier": "all complexes, flows, noise draws, mu >= 0", "why_tests_cant": "all noise realisations", "anchors": ["pytspl/filters/simplicial_trend_filter.py:SimplicialTrendFilter.denoising_l2_regularizer"]}
{"id": "C48", "title": "Interpolation keeps the observed edges", "statement": "Whenever the solver returns a point satisfying the constraints handed to it, the interpolated flow agrees with the input flow on exactly floor(r * edges) sampled edges. A ratio r with r * edges negative or at least edges + 1 never completes (ValueError for the first such). The objective pulls unobserved edges towards zero: whenever the solver returns a minimiser and the weight times the sum of the operator's row norms is below 1, unobserved edges stay exactly zero.", "quantifier": "all flows, ratios, samples and solvers", "why_tests_cant": "all random samples", "anchors": ["pytspl/filters/simplicial_trend_filter.py:SimplicialTrendFilter.interpolation_l1_regularizer"]}
{"id": "C49", "title": "l1 trend filtering does not worsen the regulariser", "statement": "Whenever the solver returns a minimiser of the objective handed to it (mu > 0), the l1 norm of the shifted estimate is at most that of the shifted noisy flow, their distance is at most mu times that norm, and a flow in the kernel of the shift operator is returned unchanged. If mu times the sum of the operator's row norms is below 1, the noisy flow itself is returned.", "quantifier": "all flows, operators, mu and solvers", "why_tests_cant": "all minimisers", "anchors": ["pytspl/filters/simplicial_trend_filter.py:SimplicialTrendFilter._solver", "pytspl/filters/simplicial_trend_filter.py:SimplicialTrendFilter.denoising_l1_regularizer"]}
{"id": "C50", "title": "Noise power", "statement": "get_power_noise gives for each requested SNR (dB) the value ||flow|| / 10^(snr/10) / number of edges, which is nonnegative, homogeneous in the flow and strictly decreasing in the SNR for a nonzero flow. The noise added with it has energy ||flow||^2 ||z||^2 / (10^(snr/10) * edges)^2 for a sample z.", "quantifier": "all flows and SNR lists", "why_tests_cant": "all reals", "anchors": ["pytspl/filters/simplicial_trend_filter.py:SimplicialTrendFilter.get_power_noise"]}
{"id": "C51", "title": "Reading an edge table", "statement": "The node and edge extraction of read_csv and read_tntp yields an ascending edge list without repetitions in either direction, containing every row's pair in one of its two directions and nothing else, each in the direction of its first row, and the node list 0..max; an empty table raises ValueError. Column names of TNTP and node tables are the header names without the white space around them.", "quantifier": "all tables", "why_tests_cant": "all tables of any length", "anchors": ["pytspl/io/network_reader.py:_extract_nodes_edges"]}
{"id": "C52", "title": "Row order does not change the network", "statement": "Permuting the rows of the table changes neither the nodes nor the set of undirected edges (only the stored direction of an edge listed in both directions may change).", "quantifier": "all tables and permutations", "why_tests_cant": "all permutations", "anchors": ["pytspl/io/network_reader.py:_extract_nodes_edges"]}
{"id": "C53", "title": "One-based tables", "statement": "Reading a table with start_index_zero=False gives exactly what reading the table with all ids decremented gives with start_index_zero=True; a 0 id in a one-based table silently produces the endpoint -1, which the complex treats as the last node.", "quantifier": "all tables", "why_tests_cant": "all tables", "anchors": ["pytspl/io/network_reader.py:_extract_nodes_edges"]}
{"id": "C54", "title": "Edge features belong to their edge only for sorted duplicate-free tables", "statement": "read_csv/read_tntp give the i-th sorted edge the features of the i-th table row. If the rows are already strictly ascending and mention no pair twice this is the edge's own row; in general it is not (refuted, also on the bundled paper dataset).", "quantifier": "all tables", "why_tests_cant": "alignment depends on the data; fixtures never compare features", "anchors": ["pytspl/io/network_reader.py:read_csv", "pytspl/io/network_reader.py:read_tntp"]}
{"id": "C55", "title": "read_csv needs feature_cols", "statement": "read_csv called with its default feature_cols=None raises TypeError for every non-empty table; with an empty list it returns no features; a feature column not in the table raises KeyError.", "quantifier": "all tables", "why_tests_cant": "all inputs on the default path", "anchors": ["pytspl/io/network_reader.py:read_csv"]}
{"id": "C56", "title": "Incidence-matrix round trip", "statement": "If a complex has nodes 0..n-1, loop-free edges listed in ascending order (each in either direction), its last node has an edge and its triangles are ascending, then reading back its B1 and transposed B2 gives the same nodes, edges and triangles, and rebuilding gives the same incidence matrices. The edge of a column runs from the first -1 to the first 1 and a column without one of them raises IndexError; only the zero pattern of B2 is used. Without ascending edge columns the triangles are read against the re-sorted edges and come out wrong, and isolated nodes after the last connected one are lost (both refuted).", "quantifier": "all such complexes", "why_tests_cant": "round trip for all sizes", "anchors": ["pytspl/io/network_reader.py:read_B1_B2", "pytspl/io/network_reader.py:read_B2"]}
{"id": "C57", "title": "Reading coordinates", "statement": "read_coordinates returns None iff the file is missing; otherwise the mapping sends each node id (minus one for one-based files) to the coordinates in its last row, with exactly the ids of the table as keys.", "quantifier": "all coordinate tables", "why_tests_cant": "all tables", "anchors": ["pytspl/io/network_reader.py:read_coordinates"]}
{"id": "C58", "title": "Net transportation flow", "statement": "For an ascending duplicate-free edge list whose edges all have a row, load_flow_transportation returns exactly one entry per edge, in edge order, equal to the volume in edge direction minus the volume in the opposite direction (0 if absent); a missing forward row raises IndexError. For an unsorted edge list edges can be silently skipped, because visited edges are recorded 0-based and looked up 1-based (refuted).", "quantifier": "all flow tables and edge lists", "why_tests_cant": "index arithmetic over all edge lists", "anchors": ["pytspl/io/data_loaders/transportation_loader.py:load_flow_transportation"]}
{"id": "C59", "title": "Dataset dispatch", "statement": "list_datasets lists the entries of the data folder except .DS_Store and README.md, and the four registered names. load_dataset(name) raises ValueError for exactly the unlisted names; otherwise it runs the loader the name stands for (a registered name wins over a folder of that name), passes its exceptions on, and returns its result iff there are as many coordinates as nodes (AssertionError otherwise). A transportation network counted from one without node and flow files loads with the network of its table and one generated position per node; the foreign-exchange flow pairs edge i with value i. The last.fm data set, whose B2 file is missing from the checkout, raises. The paper example is the network of its edge table with all triangles, the coordinates of its file and first-column flow values by edge position; last.fm and Chicago are the complexes of their two incidence files with the flow file read row by row. The water network's third component is no edge flow: it is the array of heads followed by the head losses -h*sign(q)*|q|^1.852 of the pipes; a single resistance raises IndexError, unequal lengths raise ValueError. With a node file, node q of a transportation network gets the coordinates listed for id q+1, the last such row winning.", "quantifier": "all names and directory contents", "why_tests_cant": "all names", "anchors": ["pytspl/io/dataset_loader.py:load_dataset", "pytspl/io/dataset_loader.py:list_datasets", "pytspl/io/data_loaders/transportation_loader.py:list_transportation_datasets", "pytspl/io/data_loaders/paper_loader.py:load_paper_data", "pytspl/io/data_loaders/lastfm_loader.py:load_lastfm_1k_artist", "pytspl/io/data_loaders/wsn_loader.py:load_wsn_data", "pytspl/io/data_loaders/transportation_loader.py:load_chicago_sketch"]}
{"id": "C60", "title": "Random complexes", "statement": "generate_random_simplicial_complex succeeds for every size, probability, threshold and random stream and returns a complex over nodes 0..n-1 whose edges are the drawn ascending pairs in lexicographic order, whose i-th edge has the i-th weight, with B1 B2 = 0, whose triangles are the 3-cliques with all three weights nonzero and below the threshold; a larger probability only adds edges and a larger threshold only adds triangles. The seed fixes nodes and edges but not the weights, so equal seeds can give different triangles (refuted determinism).", "quantifier": "all graphs the generator can draw, all random streams", "why_tests_cant": "randomness: statement about all streams", "anchors": ["pytspl/io/sc_generator.py:generate_random_simplicial_complex"]}
{"id": "C61", "title": "GP kernels give symmetric positive semidefinite covariance", "statement": "For every list of edge indices in range the covariance matrix returned by the diffusion, Matern, Laplacian and non-HC kernels exists, is symmetric and positive semidefinite, for all positive hyperparameters and all eigenpairs with nonnegative (for the Laplacian kernel positive gradient/curl) eigenvalues; entry (a,b) is the covariance of edges x1[a] and x2[b] and an index out of range raises IndexError. On orthonormal eigenvectors the matrix over all edges multiplies each eigenvector by the documented spectral factor of its component and class. The non-HC classes ignore all hyperparameters except kappa_down and mu_down.", "quantifier": "all eigenpairs, hyperparameters and index lists", "why_tests_cant": "all quadratic forms", "anchors": ["pytspl/hogde_gp/forex/diffusion.py:DiffusionKernelForex.forward", "pytspl/hogde_gp/forex/matern.py:MaternKernelForex.forward", "pytspl/hogde_gp/forex/laplacian.py:LaplacianKernelForex.forward", "pytspl/hogde_gp/forex/diffusion_non_hc.py:DiffusionNonHCKernelForex.forward", "pytspl/hogde_gp/forex/matern_non_hc.py:MaternNonHCKernelForex.forward"]}
{"id": "C62", "title": "GP kernel call conventions", "statement": "forward(x1, x2, diag=True) is the diagonal of forward(x1, x2); the documented default x2=None never works: it raises AttributeError before the None check.", "quantifier": "all index lists", "why_tests_cant": "all inputs", "anchors": ["pytspl/hogde_gp/forex/diffusion.py:DiffusionKernelForex.forward"]}
{"id": "C63", "title": "Kernel selection", "statement": "KernelSerializer.serialize raises ValueError for unknown kernel types and for every data name but 'forex'; of the six advertised kernel types five yield their kernel and 'laplacian_non_hc' raises KeyError.", "quantifier": "all strings", "why_tests_cant": "all strings", "anchors": ["pytspl/hogde_gp/kernel_serializer.py:KernelSerializer._get_serializer", "pytspl/hogde_gp/kernels.py:Kernels"]}
{"id": "C64", "title": "Target normalisation", "statement": "normalize_data applies one increasing affine map to all three arrays; the normalised training targets have mean 0 and sample variance 1 whenever the training targets are not all equal, and the result is not finite when they are all equal or there is only one.", "quantifier": "all target arrays", "why_tests_cant": "identity over reals", "anchors": ["pytspl/hogde_gp/hodge_gp_trainer.py:HodgeGPTrainer.normalize_data"]}
{"id": "C65", "title": "Train/test split", "statement": "train_test_split returns index/target pairs in which every edge index occurs exactly once across train and test, each target is the one at its index, and the training part has floor(ratio*n) elements; it raises ValueError if the number of targets differs from the number of edges, the ratio is not strictly between 0 and 1, or the training part would be empty.", "quantifier": "all targets, ratios, permutations drawn", "why_tests_cant": "all permutations", "anchors": ["pytspl/hogde_gp/hodge_gp_trainer.py:HodgeGPTrainer.train_test_split"]}
{"id": "C66", "title": "The trained model of a trainer", "statement": "Until train() has completed, get_model_parameters and build_matern_kernel raise AttributeError, never the documented ValueError, whatever else is called. After a completed train() they refer to the model trained last and use its hyperparameters at the time of the call. Only the two Matern classes work; the other classes raise AttributeError.", "quantifier": "all call sequences without a completed train()", "why_tests_cant": "state-machine statement", "anchors": ["pytspl/hogde_gp/hodge_gp_trainer.py:HodgeGPTrainer.get_model_parameters", "pytspl/hogde_gp/hodge_gp_trainer.py:HodgeGPTrainer.build_matern_kernel"]}
{"id": "C67", "title": "Matern kernel matrix of the trainer", "statement": "For a trained Matern model with positive hyperparameters on an oriented complex, build_matern_kernel returns a symmetric positive definite matrix on the edges that multiplies every harmonic, gradient and curl eigenvector by the scaled Matern factor of its component; with it the diagonal, or the scalar 0 iff the smallest and largest diagonal entries are close in the sense of np.isclose. For the Matern class built from the complex's own eigenpairs it equals the covariance of the model's prior; for the Matern class without Hodge composition it does not in general.", "quantifier": "all complexes and hyperparameters", "why_tests_cant": "all quadratic forms", "anchors": ["pytspl/hogde_gp/hodge_gp_trainer.py:HodgeGPTrainer.build_matern_kernel"]}
{"id": "C68", "title": "Keywords of draw_network", "statement": "draw_network raises ValueError and draws nothing as soon as one keyword is a parameter of none of the node, edge and label routines. Otherwise every routine receives exactly the keywords it has a parameter for, with the value given or else draw_network's own default. The keyword edge_labels is accepted, yet makes the call raise TypeError whenever labels are to be drawn.", "quantifier": "all keyword sets, flows, axes, complexes and figure states", "why_tests_cant": "All combinations of keywords with all flows.", "anchors": ["pytspl/plot/plot.py:SCPlot.draw_network"]}
{"id": "C69", "title": "Edge colours match edges", "statement": "For a dictionary of numbers, and for a list of numeric colours, the colours handed to the drawing library line up with the edges as drawn: every edge is drawn once and gets its own value, in whatever order the dictionary lists the edges. Dictionaries of colour names are not reordered, so edges can get each other's colours (refuted). An empty flow dictionary raises ValueError unless both colour limits are given. The empty text as node colour raises ValueError.", "quantifier": "all flow dictionaries, colour lists, complexes and figure states", "why_tests_cant": "All orders of all dictionaries; a misplaced colour looks like a correct picture.", "anchors": ["pytspl/plot/plot.py:SCPlot.draw_sc_edges"]}
{"id": "C70", "title": "Eigenvector plots", "statement": "draw_eigenvectors draws one panel per chosen eigenvector, in order, each showing that eigenvector and titled with its eigenvalue, in a grid of at most three columns that has at least as many cells as eigenvectors and less than one spare row. A component without eigenvectors raises ZeroDivisionError and an unknown component ValueError, both before anything is drawn.", "quantifier": "all complexes, eigensolvers, index lists and figure states", "why_tests_cant": "All numbers of eigenvectors and all index lists.", "anchors": ["pytspl/plot/plot.py:SCPlot.draw_eigenvectors"]}
{"id": "C71", "title": "Edge label positions", "statement": "With m the midpoint, the label of a vertical edge is put at m moved right by a third of the offset, of a horizontal edge at m moved down by the offset, of an edge with ten times |dy| at most |dx| at m moved up by half the offset, and of any other edge at m moved left and up by the offset. The label position of an edge does not depend on the direction in which the edge is given, lies within the given offset of the midpoint in each coordinate, and for a positive offset and distinct end points is never the midpoint itself.", "quantifier": "all coordinates and offsets", "why_tests_cant": "All real coordinates.", "anchors": ["pytspl/plot/plot.py:SCPlot._calculate_edge_label_position"]}
{"id": "C72", "title": "Drawing with and without coordinates", "statement": "If no coordinates are given, drawing the nodes fails with KeyError when some node is on no edge and succeeds otherwise. generate_coordinates has a position for every node, and with its result drawing the nodes succeeds, except for a complex without nodes and edges (ValueError).", "quantifier": "all complexes, layouts and figure states", "why_tests_cant": "All graphs.", "anchors": ["pytspl/plot/plot.py:SCPlot._init_axes", "pytspl/plot/plot.py:SCPlot.draw_sc_nodes", "pytspl/simplicial_complex/simplicial_complex.py:SimplicialComplex.generate_coordinates"]}
{"id": "C73", "title": "Feature access", "statement": "get_edge_features(name) maps every edge to its own value of that feature, or raises KeyError if some edge lacks it; without a name (or with an empty one) it returns the whole dictionary; edge_feature_names lists the features of the first edge. A new complex returns the node and edge features it was given.", "quantifier": "all feature dictionaries and names", "why_tests_cant": "all dictionaries", "anchors": ["pytspl/simplicial_complex/simplicial_complex.py:SimplicialComplex.get_edge_features", "pytspl/simplicial_complex/simplicial_complex.py:SimplicialComplex.edge_feature_names", "pytspl/simplicial_complex/simplicial_complex.py:SimplicialComplex.get_node_features"]}
{"id": "C74", "title": "Shared default feature dictionaries", "statement": "Two builders (or complexes) created without feature arguments share one and the same feature dictionaries after every call sequence: a feature written through one is visible through the other, although they were created independently (independence is refuted). A complex shares both dictionaries with the builder it was made from. An assignment changes the features of no object that refers to a different dictionary. The defaults of the builder and of the complex, and those for nodes and for edges, are four different dictionaries: writing one leaves the other three unchanged.", "quantifier": "all call sequences", "why_tests_cant": "aliasing across objects over call histories", "anchors": ["pytspl/simplicial_complex/scbuilder.py:SCBuilder.__init__", "pytspl/simplicial_complex/simplicial_complex.py:SimplicialComplex.__init__"]}
{"id": "C75", "title": "What the history plots show", "statement": "Before the first completed run both frequency-response plots raise ValueError. After EdgeFlowDenoising.denoise the plot for the same matrix shows 1/(1 + mu lambda) at the eigenvalues lambda (those below machine precision drawn at 0) for the last mu. After ChebyshevFilterDesign.apply the plot shows the spectral coefficients of the last estimate next to those of the chosen component of the given flow, which are not responses of the filter.", "quantifier": "all complexes, flows, parameters and call sequences", "why_tests_cant": "statement over all call sequences and spectra", "anchors": ["pytspl/filters/edge_flow_denoising.py:EdgeFlowDenoising.plot_desired_frequency_response", "pytspl/filters/chebyshev_filter_design.py:ChebyshevFilterDesign.plot_frequency_response_approx"]}
{"id": "C76", "title": "Trend filter history: last completed call, honest summaries", "statement": "After any sequence of calls on a SimplicialTrendFilter the history holds exactly the result of the last call that completed (nothing if none did). In it, component_flow, errors and correlations are the row means of the norm of the requested component, the relative error and Pearson's correlation of the stored estimates; the correlation lies in [-1, 1] and is 1 (-1) exactly for increasing (decreasing) affine images.", "quantifier": "all complexes, call sequences, noise draws and solvers", "why_tests_cant": "all call sequences and all real signals", "anchors": ["pytspl/filters/simplicial_trend_filter.py:SimplicialTrendFilter.set_history", "pytspl/filters/simplicial_trend_filter.py:SimplicialTrendFilter._calculate_correlation"]}
{"id": "C77", "title": "Kernel hyperparameters", "statement": "The hyperparameters of a new kernel are kappa_down, kappa_up, h, h_down and h_up for both diffusion kernels, these and kappa, mu, mu_down, mu_up for both Matern kernels, and kappa_down, kappa_up and mu for the Laplacian kernel. In a new kernel all hyperparameters of its class have the same positive value. Setting a declared hyperparameter to a positive number makes it read exactly that number and changes nothing else; setting a negative number raises RuntimeError. Names the class does not declare cannot be read.", "quantifier": "all kernels, names and values", "why_tests_cant": "all real values and all states", "anchors": ["pytspl/hogde_gp/forex/matern.py:MaternKernelForex", "pytspl/hogde_gp/forex/diffusion.py:DiffusionKernelForex", "pytspl/hogde_gp/forex/laplacian.py:LaplacianKernelForex"]}
{"id": "C78", "title": "Training mode", "statement": "Without a prediction every optimisation step on a model runs in training mode. After predict() every later optimisation step of train() on that model runs in evaluation mode, whatever is called in between, because train() never switches the mode back; so training does not always run in training mode. A training that completes runs exactly the given number of optimisation steps (none if it is negative), numbered from 0, each on the result of the one before, and changes no other model.", "quantifier": "all call sequences", "why_tests_cant": "state-machine statement", "anchors": ["pytspl/hogde_gp/hodge_gp_trainer.py:HodgeGPTrainer.train", "pytspl/hogde_gp/hodge_gp_trainer.py:HodgeGPTrainer.predict"]}
{"id": "C79", "title": "Trainer data and prior", "statement": "get_incidence_matrices returns B1 and B2, get_laplacians returns L1, L1l, L1u with L1l = B1'B1, L1u = B2B2' and L1 = L1l + L1u, and get_eigenpairs the eigenpairs of the three components at the given tolerance. The prior of ExactGPModel has mean 0 for the mean function 'zero' and the learned constant, initially 0, otherwise, and the scaled kernel matrix as covariance.", "quantifier": "all complexes, tolerances, models and inputs", "why_tests_cant": "all complexes and reals", "anchors": ["pytspl/hogde_gp/hodge_gp_trainer.py:HodgeGPTrainer.get_laplacians", "pytspl/hogde_gp/hodge_gp_trainer.py:HodgeGPTrainer.get_incidence_matrices", "pytspl/hogde_gp/hodge_gp_trainer.py:HodgeGPTrainer.get_eigenpairs", "pytspl/hogde_gp/exact_gp.py:ExactGPModel.forward"]}
{"id": "C80", "title": "Axes used by a drawing", "statement": "draw_network with given axes leaves the current axes alone and puts everything into the given axes, except node labels, which go to the current axes (so that node labels use the given axes is refuted). Without axes everything goes to the current axes. Each panel of the Hodge and eigenvector figures has axes of its own, and everything in the panel, node labels included, is in them.", "quantifier": "all complexes, flows, keywords and figure states, including failing calls", "why_tests_cant": "All figure states and interleavings.", "anchors": ["pytspl/plot/plot.py:SCPlot.draw_network", "pytspl/plot/plot.py:SCPlot.draw_sc_nodes", "pytspl/plot/plot.py:SCPlot.draw_hodge_decomposition", "pytspl/plot/plot.py:SCPlot.draw_eigenvectors"]}
{"id": "C81", "title": "Drawn points and axis limits", "statement": "The node positions used are the coordinates given, never changed by drawing; when none are given the layout made by the first drawing is kept for all later ones. Drawing the nodes first sets the limits of the given axes: to -1.1 and 1.1 if no coordinates are given, else to the bounding box of the positions widened on each side by a twentieth of its extent. With coordinates given, every node, edge end and triangle corner drawn lies within them.", "quantifier": "all complexes, coordinates and figure states", "why_tests_cant": "All coordinates.", "anchors": ["pytspl/plot/plot.py:SCPlot._init_axes", "pytspl/plot/plot.py:SCPlot.draw_sc_nodes", "pytspl/plot/plot.py:SCPlot.draw_sc_edges"]}
{"id": "C82", "title": "Drawing a flow array", "statement": "A flow array or list is read edge by edge in the order of the complex; surplus values and surplus edges are silently dropped. With valid keywords and coordinates for all nodes, the drawing consists exactly of the nodes, their labels, the filled triangles, every edge that has a value coloured by it, and (when asked) one label per such edge. Drawing edges alone accepts a flow only as a dictionary or not at all: an array of two or more numbers is a ValueError, a non-empty list or a non-zero number an AssertionError, nothing being drawn.", "quantifier": "all complexes, flows, keywords and figure states", "why_tests_cant": "All flows and complexes.", "anchors": ["pytspl/plot/plot.py:SCPlot.create_edge_flow", "pytspl/plot/plot.py:SCPlot.draw_network", "pytspl/plot/plot.py:SCPlot.draw_sc_edges"]}
{"id": "C83", "title": "Hodge decomposition plot", "statement": "draw_hodge_decomposition without a component draws three panels G, C, H showing the gradient, curl and harmonic flows of the complex, which without rounding add up to the flow. With a component it draws the one panel of that component. If a component cannot be computed the error is raised and nothing is drawn.", "quantifier": "all complexes, flows, least squares solvers and figure states", "why_tests_cant": "All flows and complexes.", "anchors": ["pytspl/plot/plot.py:SCPlot.draw_hodge_decomposition"]}
{"id": "C84", "title": "What each Hodge component knows about a flow", "statement": "For every complex accepted by the constructor and every flow f of edge length, the gradient component returned by get_component_flow has the same divergence as f, and the curl component has the same curl as f. Two flows have the same gradient component exactly when their divergences agree, and the same curl component exactly when their curls agree (in particular a component is zero exactly when the divergence, resp. the curl, is zero). On a coherently oriented complex a flow is its own gradient component exactly when it is the difference of a node potential, its own curl component exactly when it is the circulation of a triangle signal, and its own harmonic component exactly when its divergence and its curl vanish.", "quantifier": "all ordered fields, all complexes accepted by the constructor (last part: coherently oriented, simple edge list), all flows, every least-squares solver meeting its contract", "why_tests_cant": "The tests compare three rounded component vectors of one bundled complex. The equivalences speak about all pairs of flows and all solvers; an implementation that drops or leaks part of the divergence on some flow passes every fixed example.", "anchors": ["pytspl/decomposition/hodge_decomposition.py:get_gradient_flow", "pytspl/decomposition/hodge_decomposition.py:get_curl_flow", "pytspl/decomposition/hodge_decomposition.py:get_harmonic_flow", "pytspl/decomposition/eigendecomposition.py:get_divergence", "pytspl/decomposition/eigendecomposition.py:get_curl", "pytspl/simplicial_complex/simplicial_complex.py:SimplicialComplex.get_component_flow"]}
{"id": "C85", "title": "Eigenpair counts are the topology of the complex, but not at the default tolerance", "statement": "The number of connected components k of the edge list exists and is unique. With a tolerance below the positive spectrum, get_component_eigenpair returns n - k gradient eigenpairs (n nodes); on a coherently oriented complex with independent triangles it returns |T| curl eigenpairs and |E| - n + k - |T| harmonic eigenpairs. No positive eigenvalue of the lower Laplacian is below 1/(n(n-1)), so on every complex with at most 32 nodes the default tolerance 1e-3 gives n - k gradient eigenpairs, and |E| - n + k harmonic eigenpairs if there are no triangles. The gradient component is the identity exactly on forests (|E| + k = n). Finding: on a path of 2001 edges, a tree, the default tolerance drops gradient eigenpairs and returns a non-empty list of harmonic eigenpairs.", "quantifier": "all ordered fields, all complexes accepted by the constructor with proper edges (harmonic and curl counts: coherently oriented), all numberings of the components, all tolerances of at least machine epsilon, every eigensolver meeting its contract", "why_tests_cant": "The tests look at the bundled complexes, whose smallest positive eigenvalue is far above 1e-3. The counts hold for every complex and every eigensolver, and the wrong classification appears only on large sparse complexes that no test builds.", "anchors": ["pytspl/simplicial_complex/simplicial_complex.py:SimplicialComplex.get_component_eigenpair", "pytspl/decomposition/eigendecomposition.py:get_gradient_eigenpair", "pytspl/decomposition/eigendecomposition.py:get_curl_eigenpair", "pytspl/decomposition/eigendecomposition.py:get_harmonic_eigenpair", "pytspl/decomposition/hodge_decomposition.py:get_gradient_flow"]}
{"id": "C86", "title": "Order, numbering and direction do not matter, except for the curl", "statement": "If two complexes list the same edges and triangles in different orders and two flows agree at every edge, then get_divergence returns the same array, get_curl the same value at every triangle, and get_component_flow (each component, rounded or not) and the lower, upper and k-step shifts the same value at every edge. Renumbering the nodes by a permutation renumbers the divergence and leaves curl, components and shifts unchanged. Storing some edges in the opposite direction with the opposite flow leaves the divergence unchanged and changes the sign of the gradient component and of the lower shift exactly at those edges. For the curl, the curl component and the harmonic component this is false: they ignore the stored direction (refuted on one triangle).", "quantifier": "all complexes, all orders, renumberings and reversals, all flows, all least-squares solvers", "why_tests_cant": "relates all pairs of descriptions of one complex", "anchors": ["pytspl/simplicial_complex/simplicial_complex.py:SimplicialComplex.get_component_flow", "pytspl/simplicial_complex/simplicial_complex.py:SimplicialComplex.get_divergence", "pytspl/simplicial_complex/simplicial_complex.py:SimplicialComplex.get_curl", "pytspl/simplicial_complex/simplicial_complex.py:SimplicialComplex.triangles_to_B2"]}
{"id": "C87", "title": "Gaussian process predictions and their metrics", "statement": "predict succeeds exactly for existing edges, as many labels as edges and at least two test edges. It returns the Gaussian prior conditioned on the training labels: the mean is the constant plus the ridge regression on the training edges, the covariance is symmetric, positive semidefinite and at most the prior one, its variances are the least errors of linear predictors, and noise is added to them. The mean leaves the constant only within the span of the kernel's eigenvectors. MAE and MSE are average errors of the mean; the printed R2 exchanges labels and predictions and is in general not the coefficient of determination.", "quantifier": "all models with positive hyperparameters and noise, all training and test edges and labels", "why_tests_cant": "All kernels, networks, edge sets and labels; optimality over all linear predictors.", "anchors": ["pytspl/hogde_gp/hodge_gp_trainer.py:HodgeGPTrainer.predict", "pytspl/hogde_gp/exact_gp.py:ExactGPModel.forward"]}
{"id": "C88", "title": "What the Chebyshev filter computes: interpolation of the logistic cut-off", "statement": "With the default number of points, the last filter built by ChebyshevFilterDesign.apply is the polynomial of degree below L in the chosen Laplacian that agrees with the logistic function at the L Chebyshev points of [0, lambda_max]: an eigenvector whose eigenvalue is such a point (0 and lambda_max are) is multiplied by exactly the logistic function of it. Hence a flow without divergence is not removed by the gradient filter but multiplied by 1 / (1 + exp(steep cut_off)). plot_chebyshev_series_approx draws the logistic function and exactly the factors this filter applies.", "quantifier": "all complexes with at least two edges, all flows, filter sizes, cut-offs and steepnesses, all matrices with a positive eigenvalue estimate", "why_tests_cant": "A statement about all sizes and spectra; a run compares the filter with the logistic function at the eigenvalues of one network, where they differ anyway.", "anchors": ["pytspl/filters/chebyshev_filter_design.py:ChebyshevFilterDesign._get_chebyshev_series", "pytspl/filters/chebyshev_filter_design.py:ChebyshevFilterDesign.apply", "pytspl/filters/chebyshev_filter_design.py:ChebyshevFilterDesign.plot_chebyshev_series_approx"]}
{"id": "C89", "title": "Filters are linear and act on each Hodge component separately", "statement": "The filter matrix and the frequency responses computed by EdgeFlowDenoising.denoise, both LSFilterDesign methods, both GridBasedFilterDesign methods and ChebyshevFilterDesign.apply do not depend on the flow; whether the call completes depends on the flow only through its length; the estimate is the filter matrix applied to the flow and hence linear in it. On a coherently oriented complex the gradient, curl or harmonic component of the estimate is the estimate obtained for that component of the flow alone.", "quantifier": "all complexes, flows of the right length, parameters, matrices P, components, filter sizes", "why_tests_cant": "Linearity and exchangeability for all pairs of flows and all parameters; a test compares a few arrays up to rounding.", "anchors": ["pytspl/filters/edge_flow_denoising.py:EdgeFlowDenoising.denoise", "pytspl/filters/ls_filter_design.py:LSFilterDesign._apply_filter", "pytspl/filters/ls_filter_design.py:LSFilterDesign.subcomponent_extraction_type_one", "pytspl/filters/ls_filter_design.py:LSFilterDesign.subcomponent_extraction_type_two", "pytspl/filters/grid_based_filter_design.py:GridBasedFilterDesign.denoise", "pytspl/filters/grid_based_filter_design.py:GridBasedFilterDesign.subcomponent_extraction", "pytspl/filters/chebyshev_filter_design.py:ChebyshevFilterDesign.apply"]}
{"id": "C90", "title": "What the low-pass filter keeps, and that it smooths more for larger mu", "statement": "EdgeFlowDenoising.denoise with L1L leaves the curl and harmonic components of the flow as they are, with L1U the gradient and harmonic components, with L1 the harmonic component. The energy of the flow is the energy of the estimate plus 2 mu times its variation plus mu squared times the energy of P times the estimate, so with L1L the squared norm of the divergence of the estimate is at most |f|^2 / (2 mu), and with L1U that of the curl. If mu grows, energy and variation of the estimate do not grow, and its distance to the noisy flow does not shrink.", "quantifier": "all complexes with an edge (coherently oriented for the components), all flows, all P, all nonnegative weights", "why_tests_cant": "A monotonicity and conservation statement over all weights and flows; a test looks at a list of weights on one network.", "anchors": ["pytspl/filters/edge_flow_denoising.py:EdgeFlowDenoising.denoise", "pytspl/filters/base_filter.py:BaseFilter.get_p_matrix", "pytspl/simplicial_complex/simplicial_complex.py:SimplicialComplex.get_component_flow"]}
{"id": "C91", "title": "Filters do not depend on how the network is written down, except for edge directions in the grid filter", "statement": "Listing the edges and triangles in another order, with the flow listed accordingly, gives the same estimate at every edge, the same frequency responses and the same errors for denoise of EdgeFlowDenoising and GridBasedFilterDesign, both extraction types of LSFilterDesign, subcomponent_extraction of the grid filter and apply of the Chebyshev filter. Renumbering the nodes changes nothing. Reversing stored edges together with the sign of the flow there changes only those signs for EdgeFlowDenoising with L1L and for gradient extraction of type two. This is false for the grid filter: its eigenvalue estimate starts from the all-ones flow, so reversing one edge of a path multiplies the flow by 5/8 instead of 3/4.", "quantifier": "all complexes, orders, renumberings and sets of reversed edges, all flows and parameters, all eigensolvers and least-squares solvers that keep their contracts (with no relation between the eigenvectors chosen for the two complexes)", "why_tests_cant": "Compares runs on all pairs of equivalent inputs; the tests use one fixed file order, and eigensolvers choose their bases freely.", "anchors": ["pytspl/filters/edge_flow_denoising.py:EdgeFlowDenoising.denoise", "pytspl/filters/ls_filter_design.py:LSFilterDesign.subcomponent_extraction_type_one", "pytspl/filters/ls_filter_design.py:LSFilterDesign.subcomponent_extraction_type_two", "pytspl/filters/grid_based_filter_design.py:GridBasedFilterDesign.denoise", "pytspl/filters/grid_based_filter_design.py:GridBasedFilterDesign._sample_grid_points", "pytspl/filters/chebyshev_filter_design.py:ChebyshevFilterDesign.apply"]}
{"id": "C92", "title": "Results do not depend on which eigenvectors the solver returns, except for the ideal filter", "statement": "Eigenvectors are determined only up to sign, and up to rotation for repeated eigenvalues. Two eigensolvers that both return orthonormal eigenvectors in ascending order lead to the same result of EdgeFlowDenoising.denoise, both extraction types of LSFilterDesign, denoise and subcomponent_extraction of the grid filter (filter, estimate, responses, errors or exception), to the same matrices, estimates and errors of the Chebyshev filter, to the same covariance of all kernels, the same predictions and metrics of a Gaussian process, the same matrix of build_matern_kernel, and to simplicial embeddings with the same lengths and energies. This is false for the ideal frequency filter of ChebyshevFilterDesign and hence for its filter error: on the filled triangle two solvers give different ideal gradient filters.", "quantifier": "all pairs of eigensolvers keeping the contract, all complexes, flows, parameters, kernels, hyperparameters, training and test sets", "why_tests_cant": "A test run sees the eigenvectors of one LAPACK build; the claim is about every admissible choice of basis.", "anchors": ["pytspl/decomposition/eigendecomposition.py:get_eigendecomposition", "pytspl/filters/edge_flow_denoising.py:EdgeFlowDenoising.denoise", "pytspl/filters/ls_filter_design.py:LSFilterDesign._apply_filter", "pytspl/filters/chebyshev_filter_design.py:ChebyshevFilterDesign.get_ideal_frequency", "pytspl/hogde_gp/hodge_gp_trainer.py:HodgeGPTrainer.get_eigenpairs", "pytspl/hogde_gp/hodge_gp_trainer.py:HodgeGPTrainer.build_matern_kernel", "pytspl/simplicial_complex/simplicial_complex.py:SimplicialComplex.get_simplicial_embeddings"]}
{"id": "C93", "title": "Predictions depend on the observations, not on their order, and more observations never make them less certain", "statement": "HodgeGPTrainer.predict returns the same distribution and errors whatever the order of the training pairs. The predicted mean, variance and covariances at a test edge do not depend on which other test edges are asked for, and MAE, MSE and R2 do not depend on the order of the test pairs. The mean is affine in the training labels (linear when the prior mean is 0); the covariance does not depend on them. Adding observations never increases the variance of any combination of test values. At an edge that was observed the variance is at most the noise, and at most twice the noise once the likelihood has added its own.", "quantifier": "all kernels, hyperparameters, eigenpairs, training and test sets, orders and labels", "why_tests_cant": "All orders and all extensions of all data sets; monotonicity of the variance is a statement about pairs of runs.", "anchors": ["pytspl/hogde_gp/hodge_gp_trainer.py:HodgeGPTrainer.predict", "pytspl/hogde_gp/exact_gp.py:ExactGPModel.forward"]}
{"id": "C94", "title": "Gaussian processes do not depend on how the network is written down, except for edge directions", "statement": "Two complexes that list the same edges and triangles in different orders, or that differ by a renumbering of the nodes, give kernels with the same covariances between the same edges, and models that predict the same distributions and errors for them, or raise the same exception. Without triangles and with prior mean 0, reversing stored edges together with the labels there negates the predicted mean at the reversed edges and the covariances between a reversed and an unreversed edge, and leaves MAE and MSE unchanged. This is false for complexes with triangles (in the filled triangle two edges with covariance 0 get a positive covariance when one of them is reversed), for a model with a nonzero constant mean, and for R2: two separate edges with equal labels have an undefined R2, which becomes a number when one edge is reversed.", "quantifier": "all complexes, orders, numberings, sets of reversed edges, eigensolvers, kernels, hyperparameters, training and test sets", "why_tests_cant": "All orders and renumberings of all complexes, with eigenvectors chosen independently in both runs.", "anchors": ["pytspl/hogde_gp/hodge_gp_trainer.py:HodgeGPTrainer.get_eigenpairs", "pytspl/hogde_gp/hodge_gp_trainer.py:HodgeGPTrainer.predict", "pytspl/hogde_gp/exact_gp.py:ExactGPModel.forward"]}
{"id": "C95", "title": "Parts of a network that are not connected do not influence each other", "statement": "Let a set of nodes be such that no edge leads from it to the other nodes. The edges and triangles among these nodes form a complex of their own. On it, the divergence, curl, Hodge components (rounded or not) and shifts of the part of a flow are the parts of those of the whole flow; low-pass denoising of the part of a flow gives the part of the denoised flow, for every choice of Laplacian and every mu >= 0. So does l2 trend filtering, if the noisy flow of the part is the part of the noisy flow. Kernels assign covariance 0 to edges of different parts, and within the part the covariances of the kernel built for the part alone; predictions for edges of the part equal those of a model that knows only the part and the training labels in it. This is false for the grid-based filter, whose number of samples is the number of edges of the whole network: one edge alone is left unchanged, next to a second separate edge it is multiplied by 2/3. It is also false for the l1 trend filter, whose objective contains the length of the residual and not its square: with weight 2/5 and order 0 the flow (1,1) on two separate edges is estimated as (0,0), the flow (1) on one of them alone as (1).", "quantifier": "all complexes with proper edges, all sets of nodes without outgoing edges, all flows, eigensolvers, kernels, hyperparameters, training and test sets", "why_tests_cant": "Locality for every decomposition of every network into parts, with eigenvectors that may mix the parts arbitrarily.", "anchors": ["pytspl/simplicial_complex/simplicial_complex.py:SimplicialComplex.get_component_flow", "pytspl/filters/edge_flow_denoising.py:EdgeFlowDenoising.denoise", "pytspl/hogde_gp/hodge_gp_trainer.py:HodgeGPTrainer.predict", "pytspl/filters/grid_based_filter_design.py:GridBasedFilterDesign.denoise", "pytspl/filters/simplicial_trend_filter.py:SimplicialTrendFilter.denoising_l1_regularizer", "pytspl/filters/simplicial_trend_filter.py:SimplicialTrendFilter.denoising_l2_regularizer"]}
{"id": "C96", "title": "The unit in which a flow is measured does not matter, except for rounded components", "statement": "Multiplying a flow (and the true flow it is compared with) by c multiplies by c its divergence, curl, shifts, unrounded Hodge components and embedding coordinates. For c other than 0, every filter (low-pass, grid-based, both least-squares types, Chebyshev) then returns c times the estimate, with the same matrix, responses and relative errors, and fails in the same cases. For c > 0 the l2 trend filter returns c times the same estimates with the same errors and correlations; the l1 trend filter and the l1 interpolation return equally good flows: divided by c they reach the same cost as the solution in the old unit. Gaussian-process training data with normalised targets do not change under y -> a y + b with a > 0. False for the default rounding to two decimals: a gradient flow measured in units a thousand times larger has gradient component 0.", "quantifier": "all complexes, flows, factors c, parameters, eigensolvers, noise samples, solvers meeting their contract", "why_tests_cant": "Equivariance for all factors and all inputs, including error cases; an l1 solver may return any of several minimisers.", "anchors": ["pytspl/simplicial_complex/simplicial_complex.py:SimplicialComplex.get_component_flow", "pytspl/filters/edge_flow_denoising.py:EdgeFlowDenoising.denoise", "pytspl/filters/chebyshev_filter_design.py:ChebyshevFilterDesign.apply", "pytspl/filters/simplicial_trend_filter.py:SimplicialTrendFilter.denoising_l1_regularizer", "pytspl/hogde_gp/hodge_gp_trainer.py:HodgeGPTrainer.normalize_data"]}
{"id": "C97", "title": "What the weight of a trend filter does", "statement": "l1 denoising: there is a weight, depending only on the network, the component and the order, beyond which every estimate is the noisy flow minus its unrounded gradient component (component 'divergence') or minus its curl component (component 'curl'); so its divergence, respectively curl, is zero and nothing else has changed. A larger weight never gives a larger penalty nor a smaller distance to the noisy flow. l1 interpolation: a larger weight never gives a larger penalty nor a smaller energy; for each sample of observed edges there is a weight beyond which, if the observed values can be completed to a flow with zero divergence (curl), the result is such a completion of least energy. l2 denoising: a larger weight never gives more divergence, more energy or a smaller distance to the noisy flow, 2 mu |div x|^2 <= |y|^2, and the divergence vanishes only if it did before, whatever the weight.", "quantifier": "all complexes, flows, noise samples, orders, components and weights, all l1 solvers meeting their contract", "why_tests_cant": "Quantifies over all weights beyond a bound and over every solver that returns a minimiser; a test would fix a solver with its own tolerance.", "anchors": ["pytspl/filters/simplicial_trend_filter.py:SimplicialTrendFilter.denoising_l1_regularizer", "pytspl/filters/simplicial_trend_filter.py:SimplicialTrendFilter.interpolation_l1_regularizer", "pytspl/filters/simplicial_trend_filter.py:SimplicialTrendFilter.denoising_l2_regularizer"]}
{"id": "C98", "title": "Trend filters do not depend on how the network is written down", "statement": "Listing edges and triangles in another order, with the flow and the noise moved along, moves the l2 estimates along and leaves the component norms, errors and correlations as they are; renumbering the nodes leaves the whole stored history of an l2 run as it is; turning edges round, with the signs of the flow and the noise on them, changes exactly the signs of the l2 estimates on these edges (component 'divergence') and leaves norms and errors as they are. For l1 denoising and l1 interpolation the objective of a flow and of its counterpart are equal, so both runs reach the same minimum, and if the minimiser is unique the estimates are counterparts of each other, whatever solvers are used. The reported correlation is not invariant: turning an edge round can change it from nan to 1.", "quantifier": "all complexes with proper simple edges, all reorderings, renumberings and reversals, flows, noise and mask samples, orders, components and non-negative weights, all l1 solvers meeting their contract", "why_tests_cant": "Quantifies over all permutations, renumberings and reversals of all networks and over every pair of solvers that return minimisers.", "anchors": ["pytspl/filters/simplicial_trend_filter.py:SimplicialTrendFilter.denoising_l2_regularizer", "pytspl/filters/simplicial_trend_filter.py:SimplicialTrendFilter.denoising_l1_regularizer", "pytspl/filters/simplicial_trend_filter.py:SimplicialTrendFilter.interpolation_l1_regularizer", "pytspl/filters/simplicial_trend_filter.py:SimplicialTrendFilter.get_shift_operator", "pytspl/filters/simplicial_trend_filter.py:SimplicialTrendFilter._calculate_correlation"]}
{"id": "C99", "title": "Shifts and polynomial filters are local; the low-pass filter is not, but its dependence decays", "statement": "Call two edges neighbours if they share a node (L1L), a triangle (L1U) or either (L1). Shifting by one step gives on each edge a value that depends only on the flow on that edge and its neighbours, and shifting by any other number of steps depends on at most two steps from neighbour to neighbour. A least-squares or grid filter (LSFilterDesign types one and two, GridBasedFilterDesign denoising and extraction) with L coefficients gives on each edge an estimate that depends only on the flow at most L-1 steps away: changing the flow anywhere else leaves that estimate exactly as it is. The Chebyshev estimate at position j depends on at most j+1 and at most L-1 steps. The inverse low-pass filter of EdgeFlowDenoising has no such bound: for every number of steps d and every mu > 0 there are a network and two flows that agree within d steps of an edge and have different estimates on it. Its dependence decays, though: if lam is at least the largest eigenvalue of the Laplacian P (for instance its largest absolute row sum), estimates of two flows that agree within d steps of an edge differ there by at most (mu lam / (1 + mu lam))^(d+1) times the norm of the difference of the flows.", "quantifier": "all complexes with proper simple edges and proper triangles, all pairs of flows, edges, filter lengths, components and parameters, all eigensolvers and least-squares solvers meeting the contract of least squares; for the refutation all d and all mu > 0; for the decay all mu >= 0 and all upper bounds lam", "why_tests_cant": "Quantifies over all networks, all edges and every possible change of the flow beyond the given distance, and over all distances in the refutation; tests use a few small networks where most edges are within a few steps of each other.", "anchors": ["pytspl/simplicial_complex/simplicial_complex.py:SimplicialComplex.apply_lower_shifting", "pytspl/simplicial_complex/simplicial_complex.py:SimplicialComplex.apply_upper_shifting", "pytspl/simplicial_complex/simplicial_complex.py:SimplicialComplex.apply_k_step_shifting", "pytspl/filters/ls_filter_design.py:LSFilterDesign.subcomponent_extraction_type_one", "pytspl/filters/ls_filter_design.py:LSFilterDesign.subcomponent_extraction_type_two", "pytspl/filters/grid_based_filter_design.py:GridBasedFilterDesign.denoise", "pytspl/filters/grid_based_filter_design.py:GridBasedFilterDesign.subcomponent_extraction", "pytspl/filters/chebyshev_filter_design.py:ChebyshevFilterDesign.apply", "pytspl/filters/edge_flow_denoising.py:EdgeFlowDenoising.denoise"]}
