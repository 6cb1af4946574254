{
 "C01": {
  "note": "Exact arithmetic."
 },
 "C02": {
  "note": "Exact arithmetic."
 },
 "C03": {
  "note": "Over R; executable model uses the squared distance, equivalence is C03_comparison_*."
 },
 "C04": {
  "note": "Over R."
 },
 "C05": {
  "note": "Exact arithmetic; the 1e-8 assertion is in the model and proved never to fire."
 },
 "C06": {
  "note": "C06_average_in_box_refuted is the finding mentioned in the property."
 },
 "C07": {
  "note": "Complete for periodic systems and for non-periodic ones with cutoff <= 2*size; counterexample beyond that."
 },
 "C08": {
  "note": "Multiplicity statement under lookup_unique (at least three cells per periodic dimension); counterexample otherwise."
 },
 "C09": {
  "note": "Exact arithmetic; floating-point version is C54."
 },
 "C10": {
  "note": "C10_nan_node_refuted is the NaN finding."
 },
 "C12": {
  "note": "C12 duplicate-in-batch behaviour is recorded as a refutation."
 },
 "C13": {
  "note": ""
 },
 "C14": {
  "note": ""
 },
 "C25": {
  "note": "C25_zero_on_node_refuted is the finding."
 },
 "C38": {
  "note": "C38_overcount_refuted is the over-count finding."
 },
 "C18": {
  "note": "C18_nan_refuted shows that the NaN-free hypothesis is needed."
 },
 "C19": {
  "note": "Meaning of the derivative cutoff proved over R; C19_nan_refuted is the finding."
 },
 "C20": {
  "note": "Bound maxfev + N + 1; C20_budget_exceeded_refuted is the finding."
 },
 "C21": {
  "note": ""
 },
 "C22": {
  "note": ""
 },
 "C23": {
  "note": "Exact arithmetic."
 },
 "C24": {
  "note": "Exact arithmetic; also for two-step runs."
 },
 "C11": {
  "note": "File = tree of groups with unordered members (fsc.hdf5-io itself is outside /repo and modelled from its documented behaviour). Round trip exact under own_position; C11_joined_position_lost_refuted shows it is needed."
 },
 "C15": {
  "note": "Exact arithmetic. Non-periodic boxes: some simplex leaves the box (C15_nonperiodic_inside_refuted)."
 },
 "C16": {
  "note": "Stated for the first vertex of each starting simplex. Non-periodic needs at least two mesh points per dimension."
 },
 "C17": {
  "note": "Mesh stencil (dim other than 2, 3) over exact rationals; circle and sphere stencil over the standard library reals, with scipy.linalg.qr specified for single-column matrices and LAPACK Householder reflections proved to meet that specification."
 },
 "C26": {
  "note": "Over every event sequence (scheduler turns, ends, failures, saves). Finding: a stencil containing a simplex twice exceeds the limit."
 },
 "C27": {
  "note": "Set equality scheduled <-> queued/in flight/recorded/discarded with no overlap; reasons of every start, discard and skip at the moment they happen."
 },
 "C28": {
  "note": "Finding: duplicate stencil simplices give KeyError. Results equal exactly the classified list of recorded results."
 },
 "C29": {
  "note": "State after normal return; C29_hypotheses_met is a concrete complete search with refinement and discard."
 },
 "C30": {
  "note": "Also separated from positions refined before a restart."
 },
 "C31": {
  "note": "Bound is the packing number of cells of edge cutoff/dim; proved by pigeonhole on the torus."
 },
 "C32": {
  "note": "Safety form (progress) and liveness: every fair infinite schedule of a periodic (or unrefined, or refinement-bounded) search ends. Finding: num_minimize_parallel = 0 spins forever."
 },
 "C33": {
  "note": "Failures surface at the next turn; raised exceptions come from failed minimizations, which come from the potential (composition with the Nelder-Mead model and the fake potential)."
 },
 "C35": {
  "note": "Through the file encoding of C11; finding: restart with refinement_stencil=None and a queued position -> TypeError, position lost."
 },
 "C36": {
  "note": "snapshot_of: same results, refined positions, pending simplices; at least the pending positions."
 },
 "C37": {
  "note": "Search runs composed with run_minimization; NaN-free potentials; C37_value_at_node for deterministic (periodic) potentials."
 },
 "C39": {
  "note": "create_state / controller_init decision table, and that fresh and restored constructions meet good_start."
 },
 "C55": {
  "note": "On normal return every node found in the run is within the cutoff of a refined position."
 },
 "C34": {
  "note": "All operations of save with failures and crash points; process death, not power loss (no fsync in the code). C34_interrupt_leaves_temporary_file_refuted is the finding. C34_crash_and_restart combines it with C35."
 },
 "C40": {
  "note": "C40_interrupt_hangs_refuted and C40_loop_leak_refuted are findings."
 },
 "C41": {
  "note": "C41_order_irrelevant: independence of order, duplicates and set iteration order, incl. edges and attributes."
 },
 "C42": {
  "note": "Chains via linked (close ...); clusters connected and mutually separated."
 },
 "C43": {
  "note": "Edge attribute is the real-valued distance."
 },
 "C44": {
  "note": "Two-thirds comparison taken exactly (3*count >= 2*n). Findings: C44_none_evaluations_refuted (TypeError), C44_zero_evaluations_refuted (IndexError)."
 },
 "C45": {
  "note": "Random generator = arbitrary environment meeting good_rng; termination of rejection sampling only with enough draws (C45_sampling_progress: a non-rejected sample always exists)."
 },
 "C46": {
  "note": "Exact arithmetic; straight lines without periodicity, axis-parallel lines in periodic boxes, and in general parallel connecting vectors; also planes, points and the converse for spaced lines."
 },
 "C47": {
  "note": "Termination, no exception, line lies on the cluster, covers it, steps of non-zero length: for every cluster returned by create_clusters that does not consist of images of a single point (and for every graph whose nodes have a neighbour at non-zero distance). Findings: AssertionError (not caught by identify) on a cluster of periodic images of one point (C47_images_refuted), ValueError on a single position."
 },
 "C48": {
  "note": "For every cluster of create_clusters and every connected graph. nx.shortest_path is any function returning a shortest repetition-free path (good_spath), assumed for non-negative weights only, so that the weights stay non-negative is part of the proof; such a function exists (C48_shortest_paths_exist). Weights are exact reals."
 },
 "C49": {
  "note": "Finding, proved for all clusters and all choices of the library functions: NetworkXNoPath iff the chosen positions are disconnected, TypeError whenever an edge between chosen positions is not on a patched path (in particular on every cluster of two or more positions at least feature_size/3 apart). If a line is returned it is a connected part of the cluster covering it (C49_returned). C49_never_works_refuted: weights are put on a copy of the graph, and patches never pass over an edge of the subgraph because shorter holes were patched before; so weightless edges always remain."
 },
 "C56": {
  "note": "gap_threshold finite; circle and sphere stencils (dimensions 2 and 3) enter as arrays assumed usable (distinct full simplices); fresh searches only, restored ones are C39."
 },
 "C50": {
  "note": "Degree count and shape name are characterised for every graph; for connected loop-free graphs the names are proved equivalent to the existence of an arrangement of the nodes in a row / in a ring (both directions). C50_disconnected_refuted: the name says nothing about connectedness (two triangles are a CLOSED LOOP, so is the empty graph)."
 },
 "C51": {
  "note": "whole pipeline create_clusters -> calculate_dimension -> evaluate_cluster; Python set order, random draws, networkx results are parameters of which only the documented behaviour is assumed (good_environment; C51_environments_exist gives one). The AssertionError/ValueError of C47 cannot be reached through identify. Finding: ControllerState without feature_size -> AttributeError."
 },
 "C57": {
  "note": "composition of C28/C37/C51/C55/C56; C57_hypotheses_met runs an actual search (arguments -> controller -> Nelder-Mead -> identification)"
 },
 "C52": {
  "note": "matplotlib is represented by the list of things drawn; colours, axes left out. Finding: isolated nodes of a line with edges are not drawn."
 },
 "C58": {
  "note": "matplotlib represented by the list of things drawn; plot.stencil not modelled"
 },
 "C53": {
  "note": "round trip of lines (same nodes, edges, degree counts), results and containers, for every file that lists its members in any order; finding: from_hdf5 catches only AttributeError for group[()], so with h5py >= 3 (TypeError) no saved result can be loaded (C53_new_h5py_refuted). fsc.hdf5-io (numbers, None, dict, list) modelled from its documentation."
 },
 "C54": {
  "note": "over Flocq's binary64 (infinities and NaN included); for every cell count up to 2^53, not only 100. Also: stored (normalised) positions always have a fraction in [0,1); lookups never fail; findings: set_refined on a position just below the lower limit gives an index one past the end, normalize_position can return the upper limit. C54_two_thirds: the rounded majority test of the dimension equals the exact one."
 },
 "C59": {
  "note": "binary64 model of distance and connecting_vector with the assertion; finding: the tolerance 1e-8 is absolute, and in a box of size 6.5e7 the assertion fails for two positions inside it (C59_large_box_refuted)."
 },
 "C60": {
  "note": "binary64 model (FloatMin.v) of the same code as C18-C22; argsort and np.min only specified (ties, sign of zero open). C60_success_close bounds the true distances: within xtol up to a relative 2^-52. Finding: C60_degenerate_refuted (the simplex can collapse to a point, so C24 holds in exact arithmetic only)."
 },
 "C61": {
  "note": "Removes the assumption of C56 and C57 that the circle and sphere stencils are usable: proved for all rational stencils within 1/100 (per coordinate) of the exact real ones, for every QR routine meeting qr_ok (LAPACK's reflections do)."
 },
 "C62": {
  "note": "Container and cell list in IEEE binary64. C62_no_node_missed is for computed distances, _exact for exact ones. C62_boundary_refuted: the margin is needed (size 3, cutoff 0.5/3: a node with computed distance below the cutoff is not found). C62_tiny_cutoff: a box of 2^63 cutoffs gets a single cell (integer conversion)."
 },
 "C63": {
  "note": "Checks built on the lookups of C62, in binary64: exact up to the relative margin 2^-30; separation of refined positions by induction over any sequence of operations (recheck_count_cutoff = 0)."
 },
 "C64": {
  "note": "The controller (C26-C33, C55) again over IEEE doubles. Invariant by induction over events, using C62/C63; termination unconditional because refined positions are distinct vectors of finite doubles. Simplification: the queues drop the sign of zeros (Python compares 0.0 and -0.0 as equal). C64_tiny_feature_size_refuted: a feature size below the spacing of doubles makes stencil simplices coincide."
 },
 "C65": {
  "note": "np.linspace (numpy's formula start + i*step, last element set to stop) and the mesh over IEEE doubles; error analysis of each coordinate. resolved_mesh: 2*mesh size*resolution <= box size. C65_fine_mesh_refuted: a box of 4 spacings."
 },
 "C66": {
  "note": "Circle and sphere stencils enter as any doubles within 1/100 of the exact ones of C16/C17 (existence shown); the mesh stencil is computed in doubles exactly as numpy does. Simplices are told apart because a vertex of each differs from all vertices of the others by 1/64 of the cutoff."
 },
 "C67": {
  "note": "Composition of the double-precision search (C64) with the double-precision minimization (C60); positions of ended minimizations are assumed at most 512 box sizes away. Example: distance from 1/4 computed in doubles, |computed - true| <= 2^-39 proved, search with four nodes, one found with the fake potential."
 },
 "C68": {
  "note": "Exact arithmetic. C68_identified is about positions, C68_search is end to end (search, then identify.run). Example: two centres in a periodic box, one across the boundary."
 },
 "C69": {
  "note": "IEEE double precision. C69_unambiguous and C69_order assume that no exact distance is within the rounding margin of feature_size; C69_order_refuted shows that the assumption is needed. NaN coordinates are left out. Example: three positions in a periodic box, two of them neighbours across the boundary."
 },
 "C70": {
  "note": "C70_run exact, C70_double_run in IEEE double precision (rounding bounds for up to 64 dimensions and coordinates of at most 2^400; comparisons and control flow without any bound)."
 },
 "C71": {
  "note": "Over exact coordinates and real volumes. The volume is specified as base times height, the expected volume as (products of) integrals over the ball (Coquelicot's Riemann integral), independently of the determinants and constants the code uses; the constants 1/2, 8/(9 pi), 27 pi/512 are proved to be these integrals."
 },
 "C72": {
  "note": "Over IEEE binary64 for clusters, connecting vectors, averages and the dimension test. numpy's sums are any order and grouping of additions; the singular value of a one-row matrix is assumed to have a relative error of at most 2^-40; the tuples of neighbours are all combinations in any order. The allowances for rounding are part of the statement (slack, place_error)."
 },
 "C73": {
  "note": "Over IEEE binary64; the loops are those of ShortestPath.v and Ballistic.v. Norms of single vectors, matrix products and sums of rows are arbitrary; networkx finds some path if there is one (for weights that are not negative and not NaN); x ** 2 of such a number is such a number; svd of up to three vectors of finite numbers does not fail. C73_assertion_refuted is the finding. The dominating-set method is exact only (C50)."
 },
 "C74": {
  "note": "Over IEEE binary64; C71 is the same in exact arithmetic. The volume is base times height (rspanned in SpecFloatDim.v), the mean volume an integral (SpecVolume.v). LAPACK: the singular values (defined by an orthogonal matrix, SpecFloatDim.v) of the vectors connecting two or three neighbours are returned with an error of 2^-40 of their sum, x ** n with a relative error of 2^-50."
 },
 "C75": {
  "note": "Over IEEE binary64, on top of the search model of C64. sessions (SpecFloatRestart.v) are restarts at arbitrary moments, with work in between; C75_position_settles is the underlying fact about one coordinate (normalising twice is final, although normalising once is not), C75_first_restart_refuted the counterexamples to normalising once."
 },
 "C76": {
  "note": "Over the reals of the standard library (cos, sin, PI exact; numpy's rounding is not modelled here). matplotlib is the list of the drawings it is asked for, colors are left out."
 },
 "C77": {
  "note": "On top of C69 (clusters), C72 (points), C73 (lines) and C74 (dimension), over IEEE binary64. That at most 100 positions of a line are within the feature size of one of them (the hypothesis of C74) is proved from the distances and the straightness (FloatStrand.v); singular values are assumed accurate for the vectors of line groups only."
 },
 "C78": {
  "note": "C01-C04 over IEEE binary64: explicit error bounds (SpecFloatCoord.v: coord_error; SpecFloatCluster.v: dist_error). Distances are measured with the computed size of the box (fbox_size), the images of normalize_position and get_pos with the exact one."
 },
 "C79": {
  "note": "C52 over IEEE binary64. scipy.linalg.norm is a parameter with a specification (good_norm: accurate to 2^-42, independent of signs); its ValueError for infinite or NaN coordinates is outside the model. matplotlib is the list of the drawings."
 }
}