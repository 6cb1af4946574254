# NodeFinder in Rocq: design

The model lives in `rocq/theories/` (logical name `Verif`).  It is a shallow
embedding: each Python function is a Gallina function, Python exceptions are
values (`res A := Ok a | Err e`), loops are structural or fuelled recursion
(running out of fuel is a distinct error, proved unreachable), mutation returns
the new object.  Every definition cites the file and lines in `/repo` it models
and says where it simplifies.

## Layout

| file | models |
|---|---|
| `Base.v` | exceptions, sets as duplicate-free lists, sorting, exact scalars (`Qc`), floor, truncation, `%` |
| `CoordSys.v`, `CoordSysR.v` | `coordinate_system.py` (squared distances over `Qc`; the distance itself over `R`) |
| `Values.v` | function values (finite, infinities, NaN) and results of minimizations (`search/result/_minimization.py`) |
| `CellList.v` | `search/result/_cell_list.py` |
| `Container.v` | `search/result/_search_result_container.py`, `search/_fake_potential.py` |
| `Queue.v` | `search/_queue.py` |
| `NelderMead.v` | `search/_minimization/_nelder_mead.py`, `search/_minimization/_run.py` |
| `Mesh.v`, `Stencil.v` | `search/_mesh_helper.py`, `search/refinement_stencil.py` |
| `Config.v` | constructor of `search/_controller.py`: from the arguments to the controller |
| `Controller.v` | the rest of `search/_controller.py`, `search/result/_controller_state.py` |
| `SaveFile.v` | `Controller.save` over a file system with failures and crash points |
| `RunWrap.v` | `search/_run.py` (synchronous wrapper, helper thread) |
| `Hdf5.v`, `Hdf5Ident.v` | `to_hdf5` / `from_hdf5` of search and identification results |
| `Graph.v`, `Paths.v` | the parts of networkx that are used |
| `Cluster.v`, `Dimension.v` | `identify/_cluster.py`, `identify/_dimension.py` |
| `Ballistic.v`, `ShortestPath.v`, `DomSet.v` | `identify/_evaluate/_line/*.py` |
| `Shape.v` | degree counts and shape names (`identify/result/_shapes.py`) |
| `Identify.v` | `identify/_run.py`, `identify/_evaluate/` |
| `Plot.v` | `identify/plot.py`, `search/plot.py`, `_common_plot.py` (the data drawn) |
| `StencilPlot.v` | `search/plot.py: stencil` over R |
| `Float.v`, `FloatVector.v`, `FloatMin.v`, `FloatCell.v`, `FloatCheck.v`, `FloatController.v`, `FloatMesh.v`, `FloatCluster.v`, `FloatIdentify.v`, `FloatLine.v`, `FloatStencil.v`, `FloatCoord.v`, `FloatPlot.v` | coordinate functions, cell index, majority test, connecting vectors, minimizations, the cell list and result container, the duplicate checks, the search loop, stencils and meshes, clustering, dimensions, points and lines, and plots of identified objects again, in IEEE double precision |
| `Spec*.v` | small independent specifications used in theorem statements |
| `*Facts.v`, `Packing.v`, `GeomCombined.v`, `GraphComponents.v`, `LocalDim.v`, `Volume*.v`, `NelderMead*.v`, `Container{Queries,Hist}.v`, `ControllerSteps.v`, `Search*.v` | proofs |
| `Prop*.v` | the property theorems only, with their concrete instances (`_hypotheses_met`, `_met`, `Example`s) and refutations (`_refuted`) |

`tools/manifest.py` writes MANIFEST.json from the theorem names and
`tools/notes.json`; `tools/assumptions.py` prints the table of axioms below;
`tools/mutate.py` is the harness behind `seeded/LOG.jsonl`.

## Numbers

* Geometry (coordinate system, cells, mesh, simplices) is modelled over the
  exact rationals `Qc` (canonical fractions, Leibniz equality): executable and
  axiom free.  Rounding of IEEE doubles is *not* modelled there.  A distance is
  represented by its square, and `distance < c` by `0 < c /\ d^2 < c^2`; the
  equivalence with the real square root is `C03_comparison_*`.
* Nelder-Mead works on positions over `Qc` and function values `fval`: a
  rational, an infinity or NaN, with IEEE comparison rules.
* Stencils with trigonometry, norms, triangle inequality, graph weights,
  volumes and unit vectors are exact reals (standard library `R`).
* C54, C59, C60, C62-C67, C69, C70, C72-C75 and C77-C79 (in part) are about rounding, and stated over IEEE binary64 (Flocq's
  `binary_float 53 1024` with infinities and NaN; `fmod` and numpy's `%` are
  defined on top and proved correct).

## Nondeterminism

Set iteration order, `argsort` ties, random sampling, the order in which the
event loop resumes tasks, results and exceptions of user functions, I/O
failures and crash points are parameters (oracles / event lists) over which
theorems quantify.  Where the code relies on the documented behaviour of a
library function (a permutation, a shortest path, a dominating set) the
parameter has a specification as hypothesis, and an instance of the
specification is constructed.

## Per property: model and method

C01-C06: per-coordinate lemmas on `x mod s`, lifted to vectors; C03 by
comparing with every lattice shift; C04 triangle inequality in `R` via
Cauchy-Schwarz and C03.
C07-C09: cell index monotone and 1-Lipschitz in the scaled fraction, wrap-around
arithmetic on `Z`; lifted over dimensions; refutations by computation.
C10, C11, C25, C38: container as state machine, invariant "cells = stored list
partitioned by index".
C12-C14: queue invariant over operation sequences, refinement to a spec that
only remembers the list of distinct objects.
C15-C17: product/linspace combinatorics, exact bounds; circle/sphere over `R`.
C18-C24: loop invariant over the evaluation log; simulation for C23; linear
independence preserved by each move for C24.
C26-C33, C36, C37, C55: controller as event-driven transition system (scheduler
turn, end of a minimization with a result or an exception, save),
invariants by induction over event lists; C31 packing argument; C32 also as
liveness over fair infinite schedules.
C34: file-system step model with crash after any prefix of primitive steps.
C35: restore function composed with snapshot and file encoding.
C39, C40, C56: decision functions, case analysis.
C41-C43: graph model with breadth-first search proved correct.
C44-C46: counters, sampling generator driven by a random stream; Gram
determinants over exact rationals.
C47-C49, C52: graph algorithms with explicit termination measures.
C50, C51, C53: degree counting, handshake lemma; dispatcher; round trips.
C54, C59: Flocq binary64, error bounds of single operations.
C60: the loop invariant of C18-C22 again, using only that comparison of doubles is a
total preorder with NaN apart.
C57: composition of C28, C37, C51, C55, C56.
C58: list manipulation.
C61: inequalities between reals (nra), margins for perturbed stencils.
C62, C63: error bounds for cell indices (each coordinate within a margin falls in a
neighbouring cell), then the invariant of the cell list by induction over histories.
C64: the invariant of the search again over doubles (micro steps, log of actions), packing and
counting of doubles for termination.
C65: error analysis of `np.linspace`; C66: exact gaps between the stencil's simplices
(1/64 of the cutoff) survive rounding.
C67: induction over the events of the search with C60, and an error bound for
normalising.
C68: clusters are the balls around the centres (triangle inequality, separation),
volumes of neighbours stay below the limit, so every local dimension is 0; the average of
the images nearest to the centre lies in the ball (Minkowski).
C69: error bound for the norm (sums of squares, square root), then the graph argument of C41
with a margin.
C70: the step as an inductive relation (SpecStep), the loop by induction; error bounds for the
candidates.
C71: volumes as base times height (Gram determinants), expected volumes as Riemann integrals
in polar coordinates; the sequential test by induction on the draws.
C72: error bounds for sums in any order, averages and norms; then as C68, with margins.
C73: the loops of C49-C51 are shared; in double precision only the signs of weights and the step lengths matter.
C74: Gram determinants (VolumeReal.v), their Lipschitz bounds, and the rounding errors of each step (FloatDimNum.v).
C75: rounding a sum, subtracting and rounding the sum again (FloatRestart.v), then induction over restarts.
C76: fold of minimum and maximum over the vertices; covering of circle and sphere from |cos a - cos b| <= |a - b| and the division of the angle by the step.
C77: clusters and groups are matched by connectedness in both directions; dimension and shape of each from C72-C74.
C78: each operation with the relative error 2^-53; the remainder is exact up to one rounding (Float.v).
C79: the decomposition of C52 is generic in the comparison of lengths; |x - y| is symmetric in double precision, and the comparison is correct up to 2^-40.
C80 and later: see the notes in MANIFEST.json; same techniques.

Nothing is "not applicable".

## Trusted base

* Coq 8.16.1's kernel (including `vm_compute` in the refutations and instances)
  and the standard library; Flocq's definitions of binary64 operations
  (`Bplus`, ... and their correctness theorems) for C54, C59, C60, C62-C67, C69, C70, C72-C75, C77-C79; Coquelicot
  (Riemann integral and its fundamental theorem) for C71 and C74; mathcomp, std++ and the other installed libraries are not used.
* No axioms, parameters or unfinished proofs of our own.  What
  `Print Assumptions` lists (all from the standard library; theorems over `Qc`,
  `Z` and `nat` use none):

| axioms listed by `Print Assumptions` | theorems |
|---|---|
| none (closed under the global context) | C01_constructor_wf, C01_hypotheses_met, C01_normalize_canonical, C01_normalize_position, C02_fractional_round_trip, C02_hypotheses_met, C03_hypotheses_met, C05_connecting_vector, C05_hypotheses_met, C06_average_image_independent, C06_average_in_box_refuted, C06_average_nonperiodic, C06_average_periodic, C06_average_tight_cluster, C06_hypotheses_met, C07_hypotheses_met, C07_no_node_missed, C07_no_refined_missed, C07_nonperiodic_large_cutoff_refuted, C08_duplicate_report_refuted, C08_hypotheses_met, C08_only_stored_nodes, C08_only_stored_refined, C09_constructor_total, C09_hypotheses_met, C09_no_index_error, C10_add_result, C10_classification, C10_hypotheses_met, C10_nan_node_refuted, C10_node_value, C11_container_round_trip, C11_coordinate_system, C11_hypotheses_met, C11_joined_position_lost_refuted, C11_plain_result, C11_result, C11_same_answers, C11_state_round_trip, C12_duplicate_batch_refuted, C12_fifo_exactly_once, C12_hypotheses_met, C12_popped_distinct, C12_running, C13_hypotheses_met, C13_normal_form_stable, C13_same_vertices, C13_vertex_order_irrelevant, C14_hypotheses_met, C14_reload, C14_saved_objects, C15_hypotheses_met, C15_mesh, C15_mesh_defined, C15_nonperiodic_inside_refuted, C15_nonperiodic_start_inside, C15_periodic_inside, C16_hypotheses_met, C16_mesh_covers_box, C16_periodic_mesh_covers, C17_mesh_stencil, C18_hypotheses_met, C18_log_faithful, C18_nan_refuted, C18_reports_best, C18_value_at_position, C19_hypotheses_met, C19_nan_refuted, C19_no_cutoff, C19_status, C19_success_converged, C20_bad_shape, C20_budget_exceeded_refuted, C20_counts, C20_hypotheses_met, C20_terminates, C21_history, C21_history_off, C21_hypotheses_met, C21_order, C22_hypotheses_met, C22_terminates, C22_two_step, C22_value_without_fake_term, C22_without_fake, C23_hypotheses_met, C23_lattice, C23_translation, C24_hypotheses_met, C24_nondegenerate, C24_two_step, C25_fake_potential, C25_hypotheses_met, C25_zero_on_node_refuted, C26_duplicate_stencil_refuted, C26_hypotheses_met, C26_parallel_limit, C27_hypotheses_met, C27_no_position_lost, C27_no_simplex_lost, C27_only_scheduled, C27_why_started_or_discarded, C28_duplicate_stencil_refuted, C28_hypotheses_met, C28_minimized_once, C28_one_result_each, C29_complete, C29_hypotheses_met, C30_hypotheses_met, C30_refined_separated, C31_bounded_work, C31_hypotheses_met, C32_bounded_search_ends, C32_gather, C32_hypotheses_met, C32_progress, C32_search_ends, C32_unrefined_search_ends, C32_zero_parallel_refuted, C33_failures_surface, C33_hypotheses_met, C33_only_user_exceptions, C33_unfinished_saved, C34_crash_and_restart, C34_crash_leaves_complete_file, C34_failure, C34_hypotheses_met, C34_interrupt_leaves_temporary_file_refuted, C34_no_file, C34_old_or_new, C34_saves_are_atomic, C34_success, C35_finished_restart, C35_hypotheses_met, C35_no_stencil_refuted, C35_restart, C36_hypotheses_met, C36_saved_is_current, C37_hypotheses_met, C37_nodes_evaluated, C37_value_at_node, C38_hypotheses_met, C38_overcount_refuted, C38_position_rule, C38_simplex_rule, C39_fresh_start, C39_hypotheses_met, C39_integer_mesh, C39_load_and_initial_rejected, C39_load_errors, C39_load_uses_file, C39_restored_start, C39_wrong_mesh_dimension, C40_hypotheses_met, C40_interrupt_hangs_refuted, C40_loop_leak_refuted, C40_loops, C40_own_loop_closed, C40_run_search, C40_same_outcome, C45_hypotheses_met, C45_sampling_progress, C50_disconnected_refuted, C50_hypotheses_met, C50_order_irrelevant, C51_state_default_refuted, C52_isolated_node_refuted, C53_container, C53_line, C53_new_h5py_refuted, C53_older_format, C53_result, C55_every_node_refined, C55_hypotheses_met, C56_configuration, C56_default_search_ends, C56_hypotheses_met, C56_stencil_clear_of_centre, C56_valid_arguments, C58_hypotheses_met, C58_points, C58_simplices, C70_hypotheses_met, C70_run |
| `ClassicalDedekindReals.sig_forall_dec` | C76_hypotheses_met |
| `ClassicalDedekindReals.sig_forall_dec`, `FunctionalExtensionality.functional_extensionality_dep` | C48_empty, C48_graph, C48_shortest_paths_exist, C49_duplicates_removed, C51_environments_exist |
| `ClassicalDedekindReals.sig_forall_dec`, `ClassicalDedekindReals.sig_not_dec`, `FunctionalExtensionality.functional_extensionality_dep` | C03_comparison_le, C03_comparison_lt, C03_minimum_image, C04_hypotheses_met, C04_lattice_invariant, C04_nonneg, C04_normalize_invariant, C04_symmetric, C04_triangle, C04_zero, C17_circle_stencil, C17_default_sphere_stencil, C17_hypotheses_met, C17_lapack_reflections, C17_sphere_stencil, C19_derivative_cutoff, C41_hypotheses_met, C41_order_irrelevant, C41_partition, C42_chains, C42_connected, C42_hypotheses_met, C42_separated, C43_edges, C43_hypotheses_met, C44_hypotheses_met, C44_inconclusive, C44_majority, C44_no_exception, C44_none_evaluations_refuted, C44_range, C44_zero_evaluations_refuted, C45_all_or_decided, C45_distinct, C46_axis_parallel_line, C46_hypotheses_met, C46_line, C46_plane, C46_point, C46_spaced_line, C46_straight_line, C47_cluster, C47_graph, C47_hypotheses_met, C47_images_example, C47_images_refuted, C47_single_refuted, C48_cluster, C48_hypotheses_met, C49_disconnected, C49_holes_patched, C49_hypotheses_met, C49_more_hypotheses_met, C49_never_works_refuted, C49_reduced, C49_returned, C49_separated_refuted, C49_single, C49_unpatched, C49_without_holes_refuted, C51_hypotheses_met, C51_line_methods, C51_other_methods, C51_positions, C51_run, C51_state, C52_closed_loop, C52_cut_at_boundary, C52_hypotheses_met, C52_identified, C52_open_line, C52_paths, C52_result, C53_hypotheses_met, C53_identified, C57_hypotheses_met, C57_search_then_identify, C61_circle, C61_default_search_ends, C61_hypotheses_met, C61_sphere, C61_stencil_clear_of_centre, C61_valid_arguments, C68_hypotheses_met, C68_identified, C68_search, C71_well_defined, C76_not_plotted |
| `ClassicalDedekindReals.sig_forall_dec`, `ClassicalDedekindReals.sig_not_dec`, `Classical_Prop.classic`, `FunctionalExtensionality.functional_extensionality_dep` | C54_hypotheses_met, C54_index, C54_lookup, C54_normalized, C54_not_normalized_refuted, C54_not_periodic, C54_stored, C54_two_thirds, C54_two_thirds_met, C54_upper_limit_refuted, C59_hypotheses_met, C59_large_box_refuted, C59_no_assertion_error, C59_vector, C60_bad_shape, C60_counts, C60_cutoff_hypotheses_met, C60_cutoff_result, C60_degenerate_refuted, C60_derivative_cutoff, C60_history, C60_hypotheses_met, C60_log_faithful, C60_no_cutoff, C60_reports_best, C60_status, C60_success_close, C60_success_converged, C60_terminates, C60_two_runs, C60_two_runs_hypotheses_met, C60_two_step, C62_boundary_refuted, C62_classified, C62_hypotheses_met, C62_no_node_missed, C62_no_node_missed_exact, C62_no_refined_missed, C62_only_stored, C62_stored_in_box, C62_tiny_cutoff, C62_total, C63_fake_potential, C63_hypotheses_met, C63_refined_separated, C63_refinement_check, C63_simplex_rule, C64_bounded_work, C64_complete, C64_every_node_refined, C64_failures_surface, C64_fresh_start, C64_gather, C64_hypotheses_met, C64_minimized_once, C64_no_position_lost, C64_no_simplex_lost, C64_one_result_each, C64_parallel_limit, C64_progress, C64_refined_separated, C64_restart, C64_search_ends, C64_stencil_moved, C64_tiny_feature_size_refuted, C64_why_started_or_discarded, C65_coordinates, C65_fine_mesh_refuted, C65_fresh_search, C65_hypotheses_met, C65_mesh, C65_wrong_dimensions, C66_auto_stencil, C66_default_search, C66_hypotheses_met, C66_mesh_stencil, C67_exceptions, C67_gap_at_node, C67_hypotheses_met, C67_minimizations_end, C67_nodes_evaluated, C69_close_together, C69_connected, C69_distance, C69_edges, C69_hypotheses_met, C69_order, C69_order_refuted, C69_partition, C69_unambiguous, C70_double_hypotheses_met, C70_double_run, C71_hypotheses_met, C71_local_dimension, C72_average, C72_hypotheses_met, C72_identified, C72_search, C72_search_hypotheses_met, C73_assertion_refuted, C73_ballistic, C73_hypotheses_met, C73_identified, C73_search, C73_shortest_path, C74_hypotheses_met, C74_line, C74_line_hypotheses_met, C74_local_dimension, C74_spread, C74_thin, C74_well_defined, C75_every_result_kept, C75_first_restart_refuted, C75_hypotheses_met, C75_open_box, C75_position_settles, C75_settled, C76_stencil, C77_hypotheses_met, C77_identified, C77_search, C78_above_upper_limit_refuted, C78_distance, C78_hypotheses_met, C78_images, C78_limits, C78_metric, C78_normalize, C78_round_trip, C79_closed_loop, C79_cut_at_boundary, C79_hypotheses_met, C79_identified, C79_no_limit, C79_open_line, C79_paths, C79_result |

* That the model says what the Python code does: by inspection, definition by
  definition.  Nothing is extracted or run against the code (the sandbox cannot
  run it).

### Modelled

All functions of `coordinate_system.py`, `_cell_list.py`,
`_search_result_container.py`, `_controller_state.py`,
`search/result/_minimization.py`, `_queue.py`, `_mesh_helper.py`,
`_fake_potential.py`, `refinement_stencil.py`, `_nelder_mead.py`,
`_minimization/_run.py`, `_controller.py`, `search/_run.py`, `_cluster.py`,
`_dimension.py`, `identify/_evaluate/*`, `identify/_run.py`,
`identify/result/*`, `identify/plot.py`, `search/plot.py` and `io.py` (through
`Hdf5.v` / `SaveFile.v`), with these exceptions.

### Not modelled

* Colours, axes, figure set-up
  beyond the dimension check; logging; documentation strings.
* Rounding, except for C54, C59, C60, C62-C67, C69, C70, C72-C75 and C77-C79 (in part).  In the
  identification stage the dominating-set method is exact; singular values, cosines, sines and QR decompositions enter
  with an error bound.
* numpy specifics: broadcasting of wrongly shaped input, integer dtypes (an
  integer initial simplex would be truncated on assignment), ragged arrays.
* `fsc.async_tools.PeriodicTask` and `wrap_to_coroutine`: a save may happen
  at any `await`, i.e. is an event of its own; an exception in `save` ends the
  run (`SaveFile.v` models one call of save).  Real time is not modelled.
* `fsc.hdf5-io` and h5py: a file is a tree of groups with unordered
  members; lists, numbers, `None` and dictionaries are encoded as documented.
* networkx: graphs are node and edge lists; `connected_components` is
  implemented and proved; `shortest_path`, `dominating_set` are parameters with
  specifications.  Attributes of the edges of a `NodalLine` are left out.
* `scipy.special.binom` (a float) is taken as the exact binomial coefficient;
  `scipy.linalg.qr` enters by specification (proved for LAPACK's reflections).
* Power loss: C34 covers the death of the process between any two
  operations.  The code never calls fsync, so nothing can be said about a
  machine that loses power.
* `random.sample` on a set fails on Python >= 3.11 (the model is that of the
  versions the package supports).

## Findings

Behaviour that contradicts what a user would expect is stated as a theorem
with suffix `_refuted` (a counterexample), or in the property itself:

* C06 the periodic average ignores the lower limits of the box.
* C07 non-periodic lookups miss neighbours for a cutoff above twice the box;
  C08 boxes with fewer than three cells report neighbours twice.
* C10 a result with value NaN and `success` counts as node; C18 NaN
  discards a better evaluation; C19 success with NaN and the derivative cutoff;
  C20 `num_fev` may exceed `maxfev`.
* C11 the position of a joined result is lost on reload.
* C12 duplicates within one batch are queued twice; hence C26 (limit exceeded),
  C28 (KeyError) for stencils that contain a simplex twice.
* C15 the simplices of a non-periodic mesh stick out of the box.
* C25 the fake potential is zero exactly on a node.
* C32 `num_minimize_parallel=0` never ends.
* C34 an interrupt during a save leaves a temporary file.
* C35 a restart with `refinement_stencil=None` and a queued position fails
  (TypeError) and loses the position.
* C38 in small periodic boxes one refined position is counted several times, so
  `recheck_count_cutoff=1` can be reached by a single one.
* C40 the helper thread hangs on BaseException and leaks its loop.
* C44 `min_pos_evaluations=None` raises TypeError, 0 IndexError.
* C47 AssertionError on a cluster of images of one point (not reachable through
  `identify`), ValueError on a single position.
* C49 the dominating-set evaluation raises TypeError or NetworkXNoPath on every
  cluster for which at least two positions are chosen (the weights are put on a
  copy of the graph); neither is caught by `identify`.
* C50 two triangles (or nothing) are a "closed loop".
* C51 `identify.run` on a `ControllerState` without feature size: AttributeError.
* C52 isolated nodes of a line that has edges are not drawn.
* C53 with h5py >= 3 saved identification results cannot be loaded.
* C54 `set_refined` on a position slightly below the lower limit yields a cell
  index one past the end; `normalize_position` can return the upper limit.
* C60 in double precision Nelder-Mead can collapse its simplex to one point and
  report success.
* C59 the assertion in `connecting_vector` has an absolute tolerance and fails
  in boxes of size 6.5e7.
* C62 a node whose computed distance is below the cutoff can be missed when the
  cells are exactly as wide as the cutoff (relative margin 2^-30 suffices); more
  than 2^63 cells per side overflow to a single cell.
* C64 with a feature size below the spacing of doubles in the box the simplices of
  the stencil coincide: more minimizations run than allowed, then KeyError.
* C65 the same happens with the initial mesh in a box of a few spacings of doubles.
* C69 clusters can depend on the iteration order of a set: periodic distances in floating
  point are not symmetric (`C69_order_refuted`).
* C73 a position that is linked to its own periodic image only (0.0 and 1.0, possible by
  rounding within a line) ends a ballistic identification with AssertionError
  (`C73_assertion_refuted`).
* C75 a restart normalises the stored positions once more, which in double precision can move a
  node (from the upper limit of the box to the lower one, or by one unit in the last place);
  a second restart changes nothing (`C75_first_restart_refuted`).
* C78 `normalize_position` can return a position above the upper limit
  (`C78_above_upper_limit_refuted`).

Also noticed: the assignment `needs_saving = True` at the end of
`SearchResultContainer.add_result` is never reached (C36 shows that the flag of
the queue makes up for it); the docstrings of `create_clusters` ("twice
feature_size") and `_check_simplex` ("all vertices") differ from the code; a
joined result of minimizations without history has no
`fun_simplex_history` attribute to join (AttributeError).

## Testing the theorems

`seeded/LOG.jsonl` lists the wrong programs tried: one line per edit of the
model, with the theorems that no longer prove.  Survivors carry a verdict:
either the edit is harmless or equivalent, or the theorem named in
`theorems_tightened` was added or strengthened.
