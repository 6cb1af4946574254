{
 "claims": [
  {
   "property": "C01",
   "status": "proved",
   "theorems": [
    "C01_normalize_position",
    "C01_normalize_canonical",
    "C01_constructor_wf",
    "C01_hypotheses_met"
   ],
   "note": "Exact arithmetic."
  },
  {
   "property": "C02",
   "status": "proved",
   "theorems": [
    "C02_fractional_round_trip",
    "C02_hypotheses_met"
   ],
   "note": "Exact arithmetic."
  },
  {
   "property": "C03",
   "status": "proved",
   "theorems": [
    "C03_minimum_image",
    "C03_comparison_lt",
    "C03_comparison_le",
    "C03_hypotheses_met"
   ],
   "note": "Over R; executable model uses the squared distance, equivalence is C03_comparison_*."
  },
  {
   "property": "C04",
   "status": "proved",
   "theorems": [
    "C04_triangle",
    "C04_symmetric",
    "C04_nonneg",
    "C04_lattice_invariant",
    "C04_normalize_invariant",
    "C04_zero",
    "C04_hypotheses_met"
   ],
   "note": "Over R."
  },
  {
   "property": "C05",
   "status": "proved",
   "theorems": [
    "C05_connecting_vector",
    "C05_hypotheses_met"
   ],
   "note": "Exact arithmetic; the 1e-8 assertion is in the model and proved never to fire."
  },
  {
   "property": "C06",
   "status": "proved",
   "theorems": [
    "C06_average_nonperiodic",
    "C06_average_periodic",
    "C06_average_image_independent",
    "C06_average_tight_cluster",
    "C06_average_in_box_refuted",
    "C06_hypotheses_met"
   ],
   "note": "C06_average_in_box_refuted is the finding mentioned in the property."
  },
  {
   "property": "C07",
   "status": "proved",
   "theorems": [
    "C07_no_node_missed",
    "C07_no_refined_missed",
    "C07_nonperiodic_large_cutoff_refuted",
    "C07_hypotheses_met"
   ],
   "note": "Complete for periodic systems and for non-periodic ones with cutoff <= 2*size; counterexample beyond that."
  },
  {
   "property": "C08",
   "status": "proved",
   "theorems": [
    "C08_only_stored_nodes",
    "C08_only_stored_refined",
    "C08_duplicate_report_refuted",
    "C08_hypotheses_met"
   ],
   "note": "Multiplicity statement under lookup_unique (at least three cells per periodic dimension); counterexample otherwise."
  },
  {
   "property": "C09",
   "status": "proved",
   "theorems": [
    "C09_constructor_total",
    "C09_no_index_error",
    "C09_hypotheses_met"
   ],
   "note": "Exact arithmetic; floating-point version is C54."
  },
  {
   "property": "C10",
   "status": "proved",
   "theorems": [
    "C10_classification",
    "C10_add_result",
    "C10_node_value",
    "C10_nan_node_refuted",
    "C10_hypotheses_met"
   ],
   "note": "C10_nan_node_refuted is the NaN finding."
  },
  {
   "property": "C11",
   "status": "proved",
   "theorems": [
    "C11_container_round_trip",
    "C11_same_answers",
    "C11_plain_result",
    "C11_result",
    "C11_coordinate_system",
    "C11_state_round_trip",
    "C11_joined_position_lost_refuted",
    "C11_hypotheses_met"
   ],
   "note": "File = tree of groups with unordered members (fsc.hdf5-io itself is outside /repo and modelled from its documented behaviour). Round trip exact under own_position; C11_joined_position_lost_refuted shows it is needed."
  },
  {
   "property": "C12",
   "status": "proved",
   "theorems": [
    "C12_hypotheses_met",
    "C12_fifo_exactly_once",
    "C12_popped_distinct",
    "C12_running",
    "C12_duplicate_batch_refuted"
   ],
   "note": "C12 duplicate-in-batch behaviour is recorded as a refutation."
  },
  {
   "property": "C13",
   "status": "proved",
   "theorems": [
    "C13_hypotheses_met",
    "C13_vertex_order_irrelevant",
    "C13_normal_form_stable",
    "C13_same_vertices"
   ],
   "note": ""
  },
  {
   "property": "C14",
   "status": "proved",
   "theorems": [
    "C14_hypotheses_met",
    "C14_saved_objects",
    "C14_reload"
   ],
   "note": ""
  },
  {
   "property": "C15",
   "status": "proved",
   "theorems": [
    "C15_hypotheses_met",
    "C15_mesh",
    "C15_mesh_defined",
    "C15_periodic_inside",
    "C15_nonperiodic_start_inside",
    "C15_nonperiodic_inside_refuted"
   ],
   "note": "Exact arithmetic. Non-periodic boxes: some simplex leaves the box (C15_nonperiodic_inside_refuted)."
  },
  {
   "property": "C16",
   "status": "proved",
   "theorems": [
    "C16_hypotheses_met",
    "C16_mesh_covers_box",
    "C16_periodic_mesh_covers"
   ],
   "note": "Stated for the first vertex of each starting simplex. Non-periodic needs at least two mesh points per dimension."
  },
  {
   "property": "C17",
   "status": "proved",
   "theorems": [
    "C17_hypotheses_met",
    "C17_mesh_stencil",
    "C17_circle_stencil",
    "C17_sphere_stencil",
    "C17_lapack_reflections",
    "C17_default_sphere_stencil"
   ],
   "note": "Mesh stencil (dim other than 2, 3) over exact rationals; circle and sphere stencil over the standard library reals, with scipy.linalg.qr specified for single-column matrices and LAPACK Householder reflections proved to meet that specification."
  },
  {
   "property": "C18",
   "status": "proved",
   "theorems": [
    "C18_log_faithful",
    "C18_reports_best",
    "C18_value_at_position",
    "C18_nan_refuted",
    "C18_hypotheses_met"
   ],
   "note": "C18_nan_refuted shows that the NaN-free hypothesis is needed."
  },
  {
   "property": "C19",
   "status": "proved",
   "theorems": [
    "C19_hypotheses_met",
    "C19_success_converged",
    "C19_status",
    "C19_derivative_cutoff",
    "C19_no_cutoff",
    "C19_nan_refuted"
   ],
   "note": "Meaning of the derivative cutoff proved over R; C19_nan_refuted is the finding."
  },
  {
   "property": "C20",
   "status": "proved",
   "theorems": [
    "C20_hypotheses_met",
    "C20_counts",
    "C20_terminates",
    "C20_bad_shape",
    "C20_budget_exceeded_refuted"
   ],
   "note": "Bound maxfev + N + 1; C20_budget_exceeded_refuted is the finding."
  },
  {
   "property": "C21",
   "status": "proved",
   "theorems": [
    "C21_hypotheses_met",
    "C21_history",
    "C21_order",
    "C21_history_off"
   ],
   "note": ""
  },
  {
   "property": "C22",
   "status": "proved",
   "theorems": [
    "C22_hypotheses_met",
    "C22_two_step",
    "C22_value_without_fake_term",
    "C22_without_fake",
    "C22_terminates"
   ],
   "note": ""
  },
  {
   "property": "C23",
   "status": "proved",
   "theorems": [
    "C23_hypotheses_met",
    "C23_translation",
    "C23_lattice"
   ],
   "note": "Exact arithmetic."
  },
  {
   "property": "C24",
   "status": "proved",
   "theorems": [
    "C24_nondegenerate",
    "C24_two_step",
    "C24_hypotheses_met"
   ],
   "note": "Exact arithmetic; also for two-step runs."
  },
  {
   "property": "C25",
   "status": "proved",
   "theorems": [
    "C25_fake_potential",
    "C25_zero_on_node_refuted",
    "C25_hypotheses_met"
   ],
   "note": "C25_zero_on_node_refuted is the finding."
  },
  {
   "property": "C26",
   "status": "proved",
   "theorems": [
    "C26_hypotheses_met",
    "C26_parallel_limit",
    "C26_duplicate_stencil_refuted"
   ],
   "note": "Over every event sequence (scheduler turns, ends, failures, saves). Finding: a stencil containing a simplex twice exceeds the limit."
  },
  {
   "property": "C27",
   "status": "proved",
   "theorems": [
    "C27_hypotheses_met",
    "C27_no_simplex_lost",
    "C27_why_started_or_discarded",
    "C27_only_scheduled",
    "C27_no_position_lost"
   ],
   "note": "Set equality scheduled <-> queued/in flight/recorded/discarded with no overlap; reasons of every start, discard and skip at the moment they happen."
  },
  {
   "property": "C28",
   "status": "proved",
   "theorems": [
    "C28_hypotheses_met",
    "C28_minimized_once",
    "C28_one_result_each",
    "C28_duplicate_stencil_refuted"
   ],
   "note": "Finding: duplicate stencil simplices give KeyError. Results equal exactly the classified list of recorded results."
  },
  {
   "property": "C29",
   "status": "proved",
   "theorems": [
    "C29_complete",
    "C29_hypotheses_met"
   ],
   "note": "State after normal return; C29_hypotheses_met is a concrete complete search with refinement and discard."
  },
  {
   "property": "C30",
   "status": "proved",
   "theorems": [
    "C30_hypotheses_met",
    "C30_refined_separated"
   ],
   "note": "Also separated from positions refined before a restart."
  },
  {
   "property": "C31",
   "status": "proved",
   "theorems": [
    "C31_hypotheses_met",
    "C31_bounded_work"
   ],
   "note": "Bound is the packing number of cells of edge cutoff/dim; proved by pigeonhole on the torus."
  },
  {
   "property": "C32",
   "status": "proved",
   "theorems": [
    "C32_progress",
    "C32_gather",
    "C32_search_ends",
    "C32_unrefined_search_ends",
    "C32_bounded_search_ends",
    "C32_zero_parallel_refuted",
    "C32_hypotheses_met"
   ],
   "note": "Safety form (progress) and liveness: every fair infinite schedule of a periodic (or unrefined, or refinement-bounded) search ends. Finding: num_minimize_parallel = 0 spins forever."
  },
  {
   "property": "C33",
   "status": "proved",
   "theorems": [
    "C33_hypotheses_met",
    "C33_failures_surface",
    "C33_unfinished_saved",
    "C33_only_user_exceptions"
   ],
   "note": "Failures surface at the next turn; raised exceptions come from failed minimizations, which come from the potential (composition with the Nelder-Mead model and the fake potential)."
  },
  {
   "property": "C34",
   "status": "proved",
   "theorems": [
    "C34_crash_leaves_complete_file",
    "C34_old_or_new",
    "C34_success",
    "C34_no_file",
    "C34_failure",
    "C34_saves_are_atomic",
    "C34_crash_and_restart",
    "C34_interrupt_leaves_temporary_file_refuted",
    "C34_hypotheses_met"
   ],
   "note": "All operations of save with failures and crash points; process death, not power loss (no fsync in the code). C34_interrupt_leaves_temporary_file_refuted is the finding. C34_crash_and_restart combines it with C35."
  },
  {
   "property": "C35",
   "status": "proved",
   "theorems": [
    "C35_hypotheses_met",
    "C35_restart",
    "C35_finished_restart",
    "C35_no_stencil_refuted"
   ],
   "note": "Through the file encoding of C11; finding: restart with refinement_stencil=None and a queued position -> TypeError, position lost."
  },
  {
   "property": "C36",
   "status": "proved",
   "theorems": [
    "C36_hypotheses_met",
    "C36_saved_is_current"
   ],
   "note": "snapshot_of: same results, refined positions, pending simplices; at least the pending positions."
  },
  {
   "property": "C37",
   "status": "proved",
   "theorems": [
    "C37_nodes_evaluated",
    "C37_value_at_node",
    "C37_hypotheses_met"
   ],
   "note": "Search runs composed with run_minimization; NaN-free potentials; C37_value_at_node for deterministic (periodic) potentials."
  },
  {
   "property": "C38",
   "status": "proved",
   "theorems": [
    "C38_simplex_rule",
    "C38_position_rule",
    "C38_overcount_refuted",
    "C38_hypotheses_met"
   ],
   "note": "C38_overcount_refuted is the over-count finding."
  },
  {
   "property": "C39",
   "status": "proved",
   "theorems": [
    "C39_hypotheses_met",
    "C39_load_and_initial_rejected",
    "C39_load_uses_file",
    "C39_load_errors",
    "C39_wrong_mesh_dimension",
    "C39_integer_mesh",
    "C39_fresh_start",
    "C39_restored_start"
   ],
   "note": "create_state / controller_init decision table, and that fresh and restored constructions meet good_start."
  },
  {
   "property": "C40",
   "status": "proved",
   "theorems": [
    "C40_same_outcome",
    "C40_loops",
    "C40_own_loop_closed",
    "C40_interrupt_hangs_refuted",
    "C40_loop_leak_refuted",
    "C40_run_search",
    "C40_hypotheses_met"
   ],
   "note": "C40_interrupt_hangs_refuted and C40_loop_leak_refuted are findings."
  },
  {
   "property": "C41",
   "status": "proved",
   "theorems": [
    "C41_partition",
    "C41_order_irrelevant",
    "C41_hypotheses_met"
   ],
   "note": "C41_order_irrelevant: independence of order, duplicates and set iteration order, incl. edges and attributes."
  },
  {
   "property": "C42",
   "status": "proved",
   "theorems": [
    "C42_chains",
    "C42_connected",
    "C42_separated",
    "C42_hypotheses_met"
   ],
   "note": "Chains via linked (close ...); clusters connected and mutually separated."
  },
  {
   "property": "C43",
   "status": "proved",
   "theorems": [
    "C43_edges",
    "C43_hypotheses_met"
   ],
   "note": "Edge attribute is the real-valued distance."
  },
  {
   "property": "C44",
   "status": "proved",
   "theorems": [
    "C44_majority",
    "C44_inconclusive",
    "C44_range",
    "C44_no_exception",
    "C44_none_evaluations_refuted",
    "C44_zero_evaluations_refuted",
    "C44_hypotheses_met"
   ],
   "note": "Two-thirds comparison taken exactly (3*count >= 2*n). Findings: C44_none_evaluations_refuted (TypeError), C44_zero_evaluations_refuted (IndexError)."
  },
  {
   "property": "C45",
   "status": "proved",
   "theorems": [
    "C45_distinct",
    "C45_all_or_decided",
    "C45_sampling_progress",
    "C45_hypotheses_met"
   ],
   "note": "Random generator = arbitrary environment meeting good_rng; termination of rejection sampling only with enough draws (C45_sampling_progress: a non-rejected sample always exists)."
  },
  {
   "property": "C46",
   "status": "proved",
   "theorems": [
    "C46_line",
    "C46_plane",
    "C46_point",
    "C46_straight_line",
    "C46_axis_parallel_line",
    "C46_spaced_line",
    "C46_hypotheses_met"
   ],
   "note": "Exact arithmetic; straight lines without periodicity, axis-parallel lines in periodic boxes, and in general parallel connecting vectors; also planes, points and the converse for spaced lines."
  },
  {
   "property": "C47",
   "status": "proved",
   "theorems": [
    "C47_cluster",
    "C47_graph",
    "C47_images_refuted",
    "C47_single_refuted",
    "C47_hypotheses_met",
    "C47_images_example"
   ],
   "note": "Termination, no exception, line lies on the cluster, covers it, steps of non-zero length: for every cluster returned by create_clusters that does not consist of images of a single point (and for every graph whose nodes have a neighbour at non-zero distance). Findings: AssertionError (not caught by identify) on a cluster of periodic images of one point (C47_images_refuted), ValueError on a single position."
  },
  {
   "property": "C48",
   "status": "proved",
   "theorems": [
    "C48_cluster",
    "C48_graph",
    "C48_shortest_paths_exist",
    "C48_empty",
    "C48_hypotheses_met"
   ],
   "note": "For every cluster of create_clusters and every connected graph. nx.shortest_path is any function returning a shortest repetition-free path (good_spath), assumed for non-negative weights only, so that the weights stay non-negative is part of the proof; such a function exists (C48_shortest_paths_exist). Weights are exact reals."
  },
  {
   "property": "C49",
   "status": "proved",
   "theorems": [
    "C49_reduced",
    "C49_disconnected",
    "C49_unpatched",
    "C49_without_holes_refuted",
    "C49_separated_refuted",
    "C49_returned",
    "C49_holes_patched",
    "C49_duplicates_removed",
    "C49_never_works_refuted",
    "C49_single",
    "C49_hypotheses_met",
    "C49_more_hypotheses_met"
   ],
   "note": "Finding, proved for all clusters and all choices of the library functions: NetworkXNoPath iff the chosen positions are disconnected, TypeError whenever an edge between chosen positions is not on a patched path (in particular on every cluster of two or more positions at least feature_size/3 apart). If a line is returned it is a connected part of the cluster covering it (C49_returned). C49_never_works_refuted: weights are put on a copy of the graph, and patches never pass over an edge of the subgraph because shorter holes were patched before; so weightless edges always remain."
  },
  {
   "property": "C50",
   "status": "proved",
   "theorems": [
    "C50_order_irrelevant",
    "C50_disconnected_refuted",
    "C50_hypotheses_met"
   ],
   "note": "Degree count and shape name are characterised for every graph; for connected loop-free graphs the names are proved equivalent to the existence of an arrangement of the nodes in a row / in a ring (both directions). C50_disconnected_refuted: the name says nothing about connectedness (two triangles are a CLOSED LOOP, so is the empty graph)."
  },
  {
   "property": "C51",
   "status": "proved",
   "theorems": [
    "C51_positions",
    "C51_run",
    "C51_line_methods",
    "C51_other_methods",
    "C51_state",
    "C51_state_default_refuted",
    "C51_environments_exist",
    "C51_hypotheses_met"
   ],
   "note": "whole pipeline create_clusters -> calculate_dimension -> evaluate_cluster; Python set order, random draws, networkx results are parameters of which only the documented behaviour is assumed (good_environment; C51_environments_exist gives one). The AssertionError/ValueError of C47 cannot be reached through identify. Finding: ControllerState without feature_size -> AttributeError."
  },
  {
   "property": "C52",
   "status": "proved",
   "theorems": [
    "C52_paths",
    "C52_open_line",
    "C52_closed_loop",
    "C52_cut_at_boundary",
    "C52_result",
    "C52_identified",
    "C52_hypotheses_met",
    "C52_isolated_node_refuted"
   ],
   "note": "matplotlib is represented by the list of things drawn; colours, axes left out. Finding: isolated nodes of a line with edges are not drawn."
  },
  {
   "property": "C53",
   "status": "proved",
   "theorems": [
    "C53_line",
    "C53_result",
    "C53_container",
    "C53_identified",
    "C53_older_format",
    "C53_new_h5py_refuted",
    "C53_hypotheses_met"
   ],
   "note": "round trip of lines (same nodes, edges, degree counts), results and containers, for every file that lists its members in any order; finding: from_hdf5 catches only AttributeError for group[()], so with h5py >= 3 (TypeError) no saved result can be loaded (C53_new_h5py_refuted). fsc.hdf5-io (numbers, None, dict, list) modelled from its documentation."
  },
  {
   "property": "C54",
   "status": "proved",
   "theorems": [
    "C54_index",
    "C54_stored",
    "C54_normalized",
    "C54_lookup",
    "C54_not_periodic",
    "C54_not_normalized_refuted",
    "C54_upper_limit_refuted",
    "C54_hypotheses_met",
    "C54_two_thirds",
    "C54_two_thirds_met"
   ],
   "note": "over Flocq's binary64 (infinities and NaN included); for every cell count up to 2^53, not only 100. Also: stored (normalised) positions always have a fraction in [0,1); lookups never fail; findings: set_refined on a position just below the lower limit gives an index one past the end, normalize_position can return the upper limit. C54_two_thirds: the rounded majority test of the dimension equals the exact one."
  },
  {
   "property": "C55",
   "status": "proved",
   "theorems": [
    "C55_hypotheses_met",
    "C55_every_node_refined"
   ],
   "note": "On normal return every node found in the run is within the cutoff of a refined position."
  },
  {
   "property": "C56",
   "status": "proved",
   "theorems": [
    "C56_configuration",
    "C56_valid_arguments",
    "C56_default_search_ends",
    "C56_stencil_clear_of_centre",
    "C56_hypotheses_met"
   ],
   "note": "gap_threshold finite; circle and sphere stencils (dimensions 2 and 3) enter as arrays assumed usable (distinct full simplices); fresh searches only, restored ones are C39."
  },
  {
   "property": "C57",
   "status": "proved",
   "theorems": [
    "C57_search_then_identify",
    "C57_hypotheses_met"
   ],
   "note": "composition of C28/C37/C51/C55/C56; C57_hypotheses_met runs an actual search (arguments -> controller -> Nelder-Mead -> identification)"
  },
  {
   "property": "C58",
   "status": "proved",
   "theorems": [
    "C58_hypotheses_met",
    "C58_points",
    "C58_simplices"
   ],
   "note": "matplotlib represented by the list of things drawn; plot.stencil not modelled"
  },
  {
   "property": "C59",
   "status": "proved",
   "theorems": [
    "C59_no_assertion_error",
    "C59_vector",
    "C59_large_box_refuted",
    "C59_hypotheses_met"
   ],
   "note": "binary64 model of distance and connecting_vector with the assertion; finding: the tolerance 1e-8 is absolute, and in a box of size 6.5e7 the assertion fails for two positions inside it (C59_large_box_refuted)."
  },
  {
   "property": "C60",
   "status": "proved",
   "theorems": [
    "C60_log_faithful",
    "C60_reports_best",
    "C60_success_converged",
    "C60_success_close",
    "C60_status",
    "C60_counts",
    "C60_terminates",
    "C60_bad_shape",
    "C60_history",
    "C60_two_step",
    "C60_degenerate_refuted",
    "C60_hypotheses_met",
    "C60_two_runs",
    "C60_derivative_cutoff",
    "C60_cutoff_result",
    "C60_no_cutoff",
    "C60_two_runs_hypotheses_met",
    "C60_cutoff_hypotheses_met"
   ],
   "note": "binary64 model (FloatMin.v) of the same code as C18-C22; argsort and np.min only specified (ties, sign of zero open). C60_success_close bounds the true distances: within xtol up to a relative 2^-52. Finding: C60_degenerate_refuted (the simplex can collapse to a point, so C24 holds in exact arithmetic only)."
  },
  {
   "property": "C61",
   "status": "proved",
   "theorems": [
    "C61_circle",
    "C61_sphere",
    "C61_valid_arguments",
    "C61_default_search_ends",
    "C61_stencil_clear_of_centre",
    "C61_hypotheses_met"
   ],
   "note": "Removes the assumption of C56 and C57 that the circle and sphere stencils are usable: proved for all rational stencils within 1/100 (per coordinate) of the exact real ones, for every QR routine meeting qr_ok (LAPACK's reflections do)."
  },
  {
   "property": "C62",
   "status": "proved",
   "theorems": [
    "C62_total",
    "C62_classified",
    "C62_stored_in_box",
    "C62_no_node_missed",
    "C62_no_node_missed_exact",
    "C62_no_refined_missed",
    "C62_only_stored",
    "C62_boundary_refuted",
    "C62_tiny_cutoff",
    "C62_hypotheses_met"
   ],
   "note": "Container and cell list in IEEE binary64. C62_no_node_missed is for computed distances, _exact for exact ones. C62_boundary_refuted: the margin is needed (size 3, cutoff 0.5/3: a node with computed distance below the cutoff is not found). C62_tiny_cutoff: a box of 2^63 cutoffs gets a single cell (integer conversion)."
  },
  {
   "property": "C63",
   "status": "proved",
   "theorems": [
    "C63_fake_potential",
    "C63_refinement_check",
    "C63_refined_separated",
    "C63_simplex_rule",
    "C63_hypotheses_met"
   ],
   "note": "Checks built on the lookups of C62, in binary64: exact up to the relative margin 2^-30; separation of refined positions by induction over any sequence of operations (recheck_count_cutoff = 0)."
  },
  {
   "property": "C64",
   "status": "proved",
   "theorems": [
    "C64_fresh_start",
    "C64_restart",
    "C64_parallel_limit",
    "C64_no_simplex_lost",
    "C64_minimized_once",
    "C64_why_started_or_discarded",
    "C64_no_position_lost",
    "C64_one_result_each",
    "C64_complete",
    "C64_every_node_refined",
    "C64_refined_separated",
    "C64_bounded_work",
    "C64_progress",
    "C64_gather",
    "C64_search_ends",
    "C64_failures_surface",
    "C64_stencil_moved",
    "C64_tiny_feature_size_refuted",
    "C64_hypotheses_met"
   ],
   "note": "The controller (C26-C33, C55) again over IEEE doubles. Invariant by induction over events, using C62/C63; termination unconditional because refined positions are distinct vectors of finite doubles. Simplification: the queues drop the sign of zeros (Python compares 0.0 and -0.0 as equal). C64_tiny_feature_size_refuted: a feature size below the spacing of doubles makes stencil simplices coincide."
  },
  {
   "property": "C65",
   "status": "proved",
   "theorems": [
    "C65_coordinates",
    "C65_mesh",
    "C65_fresh_search",
    "C65_wrong_dimensions",
    "C65_fine_mesh_refuted",
    "C65_hypotheses_met"
   ],
   "note": "np.linspace (numpy's formula start + i*step, last element set to stop) and the mesh over IEEE doubles; error analysis of each coordinate. resolved_mesh: 2*mesh size*resolution <= box size. C65_fine_mesh_refuted: a box of 4 spacings."
  },
  {
   "property": "C66",
   "status": "proved",
   "theorems": [
    "C66_auto_stencil",
    "C66_mesh_stencil",
    "C66_default_search",
    "C66_hypotheses_met"
   ],
   "note": "Circle and sphere stencils enter as any doubles within 1/100 of the exact ones of C16/C17 (existence shown); the mesh stencil is computed in doubles exactly as numpy does. Simplices are told apart because a vertex of each differs from all vertices of the others by 1/64 of the cutoff."
  },
  {
   "property": "C67",
   "status": "proved",
   "theorems": [
    "C67_nodes_evaluated",
    "C67_gap_at_node",
    "C67_exceptions",
    "C67_minimizations_end",
    "C67_hypotheses_met"
   ],
   "note": "Composition of the double-precision search (C64) with the double-precision minimization (C60); positions of ended minimizations are assumed at most 512 box sizes away. Example: distance from 1/4 computed in doubles, |computed - true| <= 2^-39 proved, search with four nodes, one found with the fake potential."
  },
  {
   "property": "C68",
   "status": "proved",
   "theorems": [
    "C68_identified",
    "C68_search",
    "C68_hypotheses_met"
   ],
   "note": "Exact arithmetic. C68_identified is about positions, C68_search is end to end (search, then identify.run). Example: two centres in a periodic box, one across the boundary."
  },
  {
   "property": "C69",
   "status": "proved",
   "theorems": [
    "C69_distance",
    "C69_partition",
    "C69_close_together",
    "C69_connected",
    "C69_edges",
    "C69_unambiguous",
    "C69_order",
    "C69_order_refuted",
    "C69_hypotheses_met"
   ],
   "note": "IEEE double precision. C69_unambiguous and C69_order assume that no exact distance is within the rounding margin of feature_size; C69_order_refuted shows that the assumption is needed. NaN coordinates are left out. Example: three positions in a periodic box, two of them neighbours across the boundary."
  },
  {
   "property": "C70",
   "status": "proved",
   "theorems": [
    "C70_double_run",
    "C70_double_hypotheses_met",
    "C70_run",
    "C70_hypotheses_met"
   ],
   "note": "C70_run exact, C70_double_run in IEEE double precision (rounding bounds for up to 64 dimensions and coordinates of at most 2^400; comparisons and control flow without any bound)."
  },
  {
   "property": "C71",
   "status": "proved",
   "theorems": [
    "C71_local_dimension",
    "C71_well_defined",
    "C71_hypotheses_met"
   ],
   "note": "Over exact coordinates and real volumes. The volume is specified as base times height, the expected volume as (products of) integrals over the ball (Coquelicot's Riemann integral), independently of the determinants and constants the code uses; the constants 1/2, 8/(9 pi), 27 pi/512 are proved to be these integrals."
  },
  {
   "property": "C72",
   "status": "proved",
   "theorems": [
    "C72_identified",
    "C72_average",
    "C72_search",
    "C72_hypotheses_met",
    "C72_search_hypotheses_met"
   ],
   "note": "Over IEEE binary64 for clusters, connecting vectors, averages and the dimension test. numpy's sums are any order and grouping of additions; the singular value of a one-row matrix is assumed to have a relative error of at most 2^-40; the tuples of neighbours are all combinations in any order. The allowances for rounding are part of the statement (slack, place_error)."
  },
  {
   "property": "C73",
   "status": "proved",
   "theorems": [
    "C73_shortest_path",
    "C73_ballistic",
    "C73_assertion_refuted",
    "C73_identified",
    "C73_search",
    "C73_hypotheses_met"
   ],
   "note": "Over IEEE binary64; the loops are those of ShortestPath.v and Ballistic.v. Norms of single vectors, matrix products and sums of rows are arbitrary; networkx finds some path if there is one (for weights that are not negative and not NaN); x ** 2 of such a number is such a number; svd of up to three vectors of finite numbers does not fail. C73_assertion_refuted is the finding. The dominating-set method is exact only (C50)."
  },
  {
   "property": "C74",
   "status": "proved",
   "theorems": [
    "C74_local_dimension",
    "C74_well_defined",
    "C74_spread",
    "C74_thin",
    "C74_line",
    "C74_line_hypotheses_met",
    "C74_hypotheses_met"
   ],
   "note": "Over IEEE binary64; C71 is the same in exact arithmetic. The volume is base times height (rspanned in SpecFloatDim.v), the mean volume an integral (SpecVolume.v). LAPACK: the singular values (defined by an orthogonal matrix, SpecFloatDim.v) of the vectors connecting two or three neighbours are returned with an error of 2^-40 of their sum, x ** n with a relative error of 2^-50."
  },
  {
   "property": "C75",
   "status": "proved",
   "theorems": [
    "C75_position_settles",
    "C75_every_result_kept",
    "C75_settled",
    "C75_open_box",
    "C75_first_restart_refuted",
    "C75_hypotheses_met"
   ],
   "note": "Over IEEE binary64, on top of the search model of C64. sessions (SpecFloatRestart.v) are restarts at arbitrary moments, with work in between; C75_position_settles is the underlying fact about one coordinate (normalising twice is final, although normalising once is not), C75_first_restart_refuted the counterexamples to normalising once."
  },
  {
   "property": "C76",
   "status": "proved",
   "theorems": [
    "C76_stencil",
    "C76_not_plotted",
    "C76_hypotheses_met"
   ],
   "note": "Over the reals of the standard library (cos, sin, PI exact; numpy's rounding is not modelled here). matplotlib is the list of the drawings it is asked for, colors are left out."
  },
  {
   "property": "C77",
   "status": "proved",
   "theorems": [
    "C77_identified",
    "C77_search",
    "C77_hypotheses_met"
   ],
   "note": "On top of C69 (clusters), C72 (points), C73 (lines) and C74 (dimension), over IEEE binary64. That at most 100 positions of a line are within the feature size of one of them (the hypothesis of C74) is proved from the distances and the straightness (FloatStrand.v); singular values are assumed accurate for the vectors of line groups only."
  },
  {
   "property": "C78",
   "status": "proved",
   "theorems": [
    "C78_limits",
    "C78_normalize",
    "C78_round_trip",
    "C78_distance",
    "C78_metric",
    "C78_images",
    "C78_above_upper_limit_refuted",
    "C78_hypotheses_met"
   ],
   "note": "C01-C04 over IEEE binary64: explicit error bounds (SpecFloatCoord.v: coord_error; SpecFloatCluster.v: dist_error). Distances are measured with the computed size of the box (fbox_size), the images of normalize_position and get_pos with the exact one."
  },
  {
   "property": "C79",
   "status": "proved",
   "theorems": [
    "C79_paths",
    "C79_no_limit",
    "C79_open_line",
    "C79_closed_loop",
    "C79_cut_at_boundary",
    "C79_result",
    "C79_identified",
    "C79_hypotheses_met"
   ],
   "note": "C52 over IEEE binary64. scipy.linalg.norm is a parameter with a specification (good_norm: accurate to 2^-42, independent of signs); its ValueError for infinite or NaN coordinates is outside the model. matplotlib is the list of the drawings."
  }
 ]
}