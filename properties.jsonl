{"id": "C01", "title": "normalize_position maps into the box", "statement": "With periodic boundary conditions normalize_position returns, in every dimension, a coordinate in [lower, upper) that differs from the given one by an integer number of periods; applying it twice equals applying it once; without periodic boundary conditions it returns the position unchanged.", "quantifier": "every coordinate system with positive size in each dimension (any dimension), every position of matching dimension", "why_tests_cant": "a statement about all real coordinates, including far outside and exactly on the box edges", "anchors": ["nodefinder/coordinate_system.py:CoordinateSystem.normalize_position"]}
{"id": "C02", "title": "fractional coordinates round-trip", "statement": "get_pos(get_frac(p)) is normalize_position(p) (so p itself when not periodic); get_frac(get_pos(f)) is f modulo 1 (f itself when not periodic); periodic fractional coordinates are in [0,1).", "quantifier": "every coordinate system with positive sizes, every position and fraction", "why_tests_cant": "round trip over an infinite domain", "anchors": ["nodefinder/coordinate_system.py:CoordinateSystem.get_frac", "nodefinder/coordinate_system.py:CoordinateSystem.get_pos"]}
{"id": "C03", "title": "distance is the minimum-image distance", "statement": "With periodic boundary conditions distance(p, q) equals the smallest Euclidean distance between p shifted by any integer combination of the box sizes and q, and that minimum is attained; otherwise it is the Euclidean distance.", "quantifier": "every coordinate system, all positions p, q, all integer lattice shifts", "why_tests_cant": "quantifies over infinitely many lattice images", "anchors": ["nodefinder/coordinate_system.py:CoordinateSystem.distance"]}
{"id": "C04", "title": "distance is a pseudo-metric on positions modulo the lattice", "statement": "distance is symmetric, non-negative, satisfies the triangle inequality, is unchanged when either argument is normalised or shifted by lattice vectors, and is zero exactly when the two positions agree modulo the lattice (coincide, if not periodic).", "quantifier": "every coordinate system with positive sizes, all triples of positions", "why_tests_cant": "algebraic laws over all reals", "anchors": ["nodefinder/coordinate_system.py:CoordinateSystem.distance", "nodefinder/coordinate_system.py:CoordinateSystem.normalize_position"]}
{"id": "C05", "title": "connecting_vector is a shortest connecting vector", "statement": "pos1 + connecting_vector(pos1, pos2) equals pos2 modulo the lattice, its length equals distance(pos1, pos2), each component is at most half the box size in magnitude, and the internal consistency assertion never fires (in exact arithmetic).", "quantifier": "every coordinate system with positive sizes, all pairs of positions", "why_tests_cant": "must hold for all pairs, including ties at half the box", "anchors": ["nodefinder/coordinate_system.py:CoordinateSystem.connecting_vector"]}
{"id": "C06", "title": "average of positions", "statement": "Without periodicity average is the arithmetic mean; with periodicity it equals, modulo the lattice, the first position plus the mean of the shortest vectors from it to all positions, so the result does not depend on which periodic images are passed. With periodic limits that do not start at zero the returned coordinates may lie outside the limits (finding).", "quantifier": "every coordinate system with positive sizes, every non-empty list of positions", "why_tests_cant": "universally quantified over lists and lattice images", "anchors": ["nodefinder/coordinate_system.py:CoordinateSystem.average", "nodefinder/identify/_evaluate/_point.py:_evaluate_point"]}
{"id": "C07", "title": "neighbour search misses no node within dist_cutoff", "statement": "For a search result container, every stored node whose distance to the query position is below dist_cutoff and whose position differs from the query is reported by the neighbour-distance queries; likewise for refined positions. Holds for all periodic systems, and for non-periodic systems whenever dist_cutoff is at most twice the box size; beyond that a non-periodic lookup can miss neighbours (finding).", "quantifier": "every history of added results and refined positions, every query position inside or outside the box, all dimensions, sizes and cutoffs", "why_tests_cant": "depends on all possible cell boundaries and histories", "anchors": ["nodefinder/search/result/_cell_list.py:CellList.get_neighbour_values", "nodefinder/search/result/_cell_list.py:CellList._calculate_neighbour_indices", "nodefinder/search/result/_search_result_container.py:SearchResultContainer.get_neighbour_distance_iterator", "nodefinder/search/result/_search_result_container.py:SearchResultContainer.get_refined_neighbour_distance_iterator", "nodefinder/search/result/_search_result_container.py:SearchResultContainer.get_all_neighbour_distances"]}
{"id": "C08", "title": "neighbour search reports only stored nodes, with known multiplicity", "statement": "Every value reported by a neighbour query was stored before. In non-periodic systems, and in periodic systems with at least three cells in each dimension, each stored value is reported at most as often as it was stored; with fewer cells a periodic query reports the same node several times, so count-based cutoffs over-count (finding).", "quantifier": "every history of additions, every query", "why_tests_cant": "multiplicity depends on wrap-around of all neighbour offsets", "anchors": ["nodefinder/search/result/_cell_list.py:CellList.get_neighbour_values", "nodefinder/search/result/_cell_list.py:CellList._calculate_neighbour_indices", "nodefinder/search/_controller.py:Controller._check_pos_refinement"]}
{"id": "C09", "title": "adding or querying a point never fails with an index error", "statement": "For every position, inside or outside the box, the cell computed for it exists: adding a result, marking a position refined and querying neighbours never raise IndexError.", "quantifier": "every container geometry, every position", "why_tests_cant": "all reals incl. box edges and far outside", "anchors": ["nodefinder/search/result/_cell_list.py:CellList.get_index", "nodefinder/search/result/_cell_list.py:CellList.add_point"]}
{"id": "C10", "title": "classification of minimization results", "statement": "add_result stores the result exactly once, as node exactly when the minimization succeeded and its value is not greater than gap_threshold, otherwise as rejected; it returns whether it was a node; the stored position is normalised; previously stored results are untouched. Consequently every node with a comparable (non-NaN) value has value <= gap_threshold; a NaN value with success is stored as a node (finding).", "quantifier": "every sequence of added results, every threshold", "why_tests_cant": "all histories", "anchors": ["nodefinder/search/result/_search_result_container.py:SearchResultContainer.add_result", "nodefinder/search/result/_search_result_container.py:SearchResultContainer.minimization_results"]}
{"id": "C11", "title": "saved search results are restored faithfully", "statement": "Serialising a search result container and loading it back gives a container with the same coordinate system, cutoffs, the same nodes, rejected results and refined positions in the same order, and hence the same answers to every query.", "quantifier": "every container reachable by any sequence of operations", "why_tests_cant": "all histories; round trip", "anchors": ["nodefinder/search/result/_search_result_container.py:SearchResultContainer", "nodefinder/search/result/_minimization.py:JoinedMinimizationResult", "nodefinder/io.py:save"]}
{"id": "C12", "title": "queue hands out every distinct object exactly once, in order", "statement": "For any sequence of add/pop operations in which each batch passed to add has no internal duplicates: an object that was ever queued is never queued again, pops return objects in first-in-first-out order of first insertion, and nothing is dropped. A batch containing the same object twice is queued twice (finding), and then marking both as finished raises KeyError.", "quantifier": "every operation sequence", "why_tests_cant": "all histories", "anchors": ["nodefinder/search/_queue.py:ObjectQueue.add_objects", "nodefinder/search/_queue.py:ObjectQueue.pop_queued", "nodefinder/search/_queue.py:RunningQueue.set_finished"]}
{"id": "C13", "title": "simplices are identified independently of vertex order", "statement": "Two simplices that list the same vertices in different order are the same queue entry; normalising a queue entry again does not change it, so re-loading a queue preserves identities.", "quantifier": "all simplices, all vertex permutations", "why_tests_cant": "all permutations", "anchors": ["nodefinder/search/_queue.py:SimplexQueue.normalize", "nodefinder/search/_queue.py:PositionQueue.normalize"]}
{"id": "C14", "title": "queue serialization keeps running objects", "statement": "The objects reported for saving are exactly the running and the queued ones, running first; reloading a saved queue gives a queue in which all of them are queued and none is running; it is empty exactly when the original was finished.", "quantifier": "every reachable queue state", "why_tests_cant": "all histories / crash points", "anchors": ["nodefinder/search/_queue.py:RunningQueue.objects", "nodefinder/search/_queue.py:RunningQueue.finished", "nodefinder/search/_queue.py:ObjectQueue.to_hdf5", "nodefinder/search/_queue.py:ObjectQueue.from_hdf5"]}
{"id": "C15", "title": "initial mesh", "statement": "The initial mesh has exactly the product of the mesh sizes many simplices, pairwise distinct as queue entries, each with dim+1 vertices that are affinely independent; in periodic systems all vertices lie inside the limits. For non-periodic systems the outermost simplices stick out of the box (finding).", "quantifier": "every dimension, all positive mesh sizes, all limits with positive size", "why_tests_cant": "all sizes and dimensions", "anchors": ["nodefinder/search/_mesh_helper.py:_generate_mesh_simplices", "nodefinder/search/_controller.py:Controller.get_initial_simplices"]}
{"id": "C16", "title": "initial mesh covers the box", "statement": "Every point of the box has, in each dimension, a mesh starting point within half a mesh spacing (periodic: modulo the period).", "quantifier": "all mesh sizes (at least two per dimension when non-periodic), all points in the box", "why_tests_cant": "infinitely many points", "anchors": ["nodefinder/search/_mesh_helper.py:_generate_mesh_simplices"]}
{"id": "C17", "title": "default refinement stencils stay clear of the refined node", "statement": "The automatic stencil for dimension d consists of simplices of d+1 vertices in d dimensions, and every vertex is farther than one dist_cutoff from the origin, so a refinement simplex is never discarded merely because of the node it refines.", "quantifier": "every dimension; for circle and sphere stencils every number of points", "why_tests_cant": "all dimensions, trigonometric geometry", "anchors": ["nodefinder/search/refinement_stencil.py:get_auto_stencil", "nodefinder/search/refinement_stencil.py:get_circle_stencil", "nodefinder/search/refinement_stencil.py:get_sphere_stencil", "nodefinder/search/refinement_stencil.py:get_mesh_stencil"]}
{"id": "C18", "title": "minimization reports the best evaluation it made", "statement": "The value reported by a minimization is the minimum of all function values returned during that run, and the reported position is a point at which exactly that value was returned; for a deterministic function value = f(pos).", "quantifier": "every function (also one that changes between calls), every starting simplex, every tolerance and budget, any tie-breaking in sorting; values comparable (no NaN)", "why_tests_cant": "all functions and trajectories", "anchors": ["nodefinder/search/_minimization/_nelder_mead.py:root_nelder_mead"]}
{"id": "C19", "title": "success means converged", "statement": "success is true (status 0) exactly when the run stopped because all vertices are within xtol of the best vertex and all values within ftol of the best value; otherwise status tells which limit was hit, evaluation budget first, then iteration budget, then derivative cutoff. With NaN values and a derivative cutoff, a run that was aborted is reported as success (finding).", "quantifier": "every function, simplex, tolerances, budgets", "why_tests_cant": "all trajectories", "anchors": ["nodefinder/search/_minimization/_nelder_mead.py:root_nelder_mead", "nodefinder/search/_minimization/_nelder_mead.py:_get_fprime_estimate"]}
{"id": "C20", "title": "evaluation and iteration counts", "statement": "The run always terminates; num_fev is the exact number of function evaluations, at most max(N+1, maxfev + N + 1); num_iter is at most max(1, maxiter) and equals the length of the kept history. num_fev can exceed maxfev (finding).", "quantifier": "every function, simplex and budgets", "why_tests_cant": "termination and counting over all trajectories", "anchors": ["nodefinder/search/_minimization/_nelder_mead.py:root_nelder_mead", "nodefinder/search/_minimization/_nelder_mead.py:wrap_function"]}
{"id": "C21", "title": "iteration history is consistent and monotone", "statement": "Every history entry lists simplex vertices in non-decreasing value order, each value having been returned for that vertex; the best value never increases from one iteration to the next; the last entry is the final simplex; switching history off does not change any other part of the result.", "quantifier": "every run", "why_tests_cant": "all trajectories", "anchors": ["nodefinder/search/_minimization/_nelder_mead.py:root_nelder_mead"]}
{"id": "C22", "title": "two-step minimization with fake potential", "statement": "With a fake potential the reported position, value, success and status are those of a second run on the unmodified function starting from the enlarged final simplex of the first, so value = f(pos) without the fake term, and value is not greater than f at the first run's result; num_fev and num_iter are the sums and histories the concatenation of both runs.", "quantifier": "every function, every fake potential (also changing over time)", "why_tests_cant": "all functions and interleavings", "anchors": ["nodefinder/search/_minimization/_run.py:run_minimization", "nodefinder/search/_minimization/_run.py:add_fake_potential", "nodefinder/search/result/_minimization.py:JoinedMinimizationResult.__getattr__"]}
{"id": "C23", "title": "minimization commutes with translations", "statement": "Shifting both the starting simplex and the function by the same vector shifts the reported position and history by that vector and leaves value, status and counts unchanged; hence for a lattice-periodic function lattice-equivalent starting simplices give the same normalised node.", "quantifier": "every function, simplex, shift (exact arithmetic)", "why_tests_cant": "relational property over all inputs", "anchors": ["nodefinder/search/_minimization/_nelder_mead.py:root_nelder_mead", "nodefinder/search/result/_search_result_container.py:SearchResultContainer.add_result"]}
{"id": "C24", "title": "the simplex never degenerates", "statement": "Starting from a non-degenerate (affinely independent) simplex, every simplex in the history is non-degenerate.", "quantifier": "every function and starting simplex (exact arithmetic)", "why_tests_cant": "all trajectories", "anchors": ["nodefinder/search/_minimization/_nelder_mead.py:root_nelder_mead"]}
{"id": "C25", "title": "fake potential", "statement": "The fake potential is infinite at a position exactly if some existing node that is not located exactly at that position is closer than its width, and zero otherwise; in particular it is zero exactly on top of an isolated node (finding).", "quantifier": "every result container, every position", "why_tests_cant": "all histories and positions", "anchors": ["nodefinder/search/_fake_potential.py:FakePotential.__call__", "nodefinder/search/result/_search_result_container.py:SearchResultContainer._get_neighbour_iterator"]}
{"id": "C26", "title": "parallelism limit", "statement": "At no time are more than num_minimize_parallel minimizations in flight.", "quantifier": "every schedule of the event loop, every outcome of every minimization, every configuration", "why_tests_cant": "all interleavings", "anchors": ["nodefinder/search/_controller.py:Controller.create_tasks", "nodefinder/search/_queue.py:RunningQueue.num_running"]}
{"id": "C27", "title": "no starting simplex is lost", "statement": "At every point of a search each simplex that was ever scheduled (initial mesh, restored state, refinement) is queued, being minimized, has a recorded result, or was discarded because enough of its vertices are close to known nodes; nothing else is minimized.", "quantifier": "every schedule, every outcome, every restart point", "why_tests_cant": "all interleavings and histories", "anchors": ["nodefinder/search/_controller.py:Controller.create_tasks", "nodefinder/search/_controller.py:Controller.run_simplex", "nodefinder/search/_controller.py:Controller.process_result"]}
{"id": "C28", "title": "every simplex is minimized at most once per run", "statement": "Within one run no simplex is handed to minimization twice, provided the stencil has no duplicate simplices; each completed minimization contributes exactly one result.", "quantifier": "every schedule and outcome", "why_tests_cant": "all interleavings", "anchors": ["nodefinder/search/_controller.py:Controller.create_tasks", "nodefinder/search/_queue.py:ObjectQueue.add_objects"]}
{"id": "C29", "title": "a search that returns is complete", "statement": "If the search returns normally, nothing is queued or in flight, every scheduled position was refined or discarded, and all results of all minimizations are in the result.", "quantifier": "every schedule and outcome", "why_tests_cant": "all interleavings", "anchors": ["nodefinder/search/_controller.py:Controller.create_tasks", "nodefinder/search/_run.py:run_async"]}
{"id": "C30", "title": "refined positions are separated by dist_cutoff", "statement": "With position rechecking and count cutoff zero, any two positions refined in a run are at least dist_cutoff apart.", "quantifier": "every schedule and outcome, periodic systems and non-periodic ones with dist_cutoff at most twice the size", "why_tests_cant": "all interleavings", "anchors": ["nodefinder/search/_controller.py:Controller._check_pos_refinement", "nodefinder/search/_controller.py:Controller.create_tasks"]}
{"id": "C31", "title": "a periodic search does a bounded amount of work", "statement": "In a periodic system with positive cutoff, position rechecking and count cutoff zero, the number of refinements is bounded by a constant depending only on the box and cutoff, so the number of minimizations in a run is bounded by initial simplices + bound * stencil size, independent of the function; the search cannot refine forever.", "quantifier": "every function, schedule and outcome", "why_tests_cant": "termination over all executions", "anchors": ["nodefinder/search/_controller.py:Controller.create_tasks", "nodefinder/search/_controller.py:Controller._check_pos_refinement"]}
{"id": "C32", "title": "the search always makes progress", "statement": "With num_minimize_parallel >= 1, whenever nothing is in flight and no failure is pending, the next turn of the scheduler either starts a minimization or finishes the search; with num_minimize_parallel = 0 it spins forever (finding).", "quantifier": "every reachable state", "why_tests_cant": "liveness", "anchors": ["nodefinder/search/_controller.py:Controller.create_tasks"]}
{"id": "C33", "title": "errors of the potential function surface", "statement": "If a minimization fails with an exception the search does not return normally: the next scheduler turn raises the exception of one of the failed minimizations, and the failed simplex is still contained in what is saved for a restart.", "quantifier": "every schedule, any number of simultaneous failures", "why_tests_cant": "all interleavings", "anchors": ["nodefinder/search/_controller.py:Controller.create_tasks"]}
{"id": "C34", "title": "the save file is always a complete snapshot", "statement": "Whatever the point at which the process dies, or if writing or renaming fails, the save file holds either the previous complete state or the new complete state, never a partial one; after a failed save no temporary file is left and the state still counts as unsaved.", "quantifier": "every crash point and every failing operation in any number of successive saves", "why_tests_cant": "crash points", "anchors": ["nodefinder/search/_controller.py:Controller.save"]}
{"id": "C35", "title": "restart resumes the calculation", "statement": "Starting with load from a snapshot taken at any point: the restored run has all results and refined positions of the snapshot, and every simplex and position that was queued or in flight is queued; work done before the snapshot is not repeated; restarting from a finished calculation performs no minimization.", "quantifier": "every snapshot point of every execution", "why_tests_cant": "all crash points", "anchors": ["nodefinder/search/_controller.py:Controller.create_state", "nodefinder/search/_queue.py:RunningQueue.objects", "nodefinder/search/result/_controller_state.py:ControllerState"]}
{"id": "C36", "title": "needs_saving never hides unsaved work", "statement": "Whenever the state is considered saved, the saved snapshot contains the same results, the same refined positions and the same pending simplices as the live state, and all live pending positions.", "quantifier": "every schedule, every placement of saves", "why_tests_cant": "all interleavings", "anchors": ["nodefinder/search/_controller.py:Controller.save", "nodefinder/search/result/_controller_state.py:ControllerState.needs_saving", "nodefinder/search/result/_search_result_container.py:SearchResultContainer.add_result"]}
{"id": "C37", "title": "every reported node satisfies the threshold and was evaluated", "statement": "Every node in a search result has, for NaN-free functions, value <= gap_threshold, is the normalised position of a point at which the function was evaluated to exactly that value, and lies within the limits when periodic.", "quantifier": "every function, configuration, schedule", "why_tests_cant": "end-to-end over all executions", "anchors": ["nodefinder/search/_controller.py:Controller.process_result", "nodefinder/search/result/_search_result_container.py:SearchResultContainer.add_result", "nodefinder/search/_minimization/_nelder_mead.py:root_nelder_mead"]}
{"id": "C38", "title": "discard rule for simplices", "statement": "A simplex is discarded exactly when more than simplex_check_cutoff of its vertices have another known node (not located exactly at the vertex) within dist_cutoff; a position is refused for refinement exactly when more than the allowed number of refined-neighbour reports are within dist_cutoff.", "quantifier": "every container state, simplex, cutoff", "why_tests_cant": "all states", "anchors": ["nodefinder/search/_controller.py:Controller._check_simplex", "nodefinder/search/_controller.py:Controller._check_pos_refinement"]}
{"id": "C39", "title": "initial state selection", "statement": "load with an explicit initial state is rejected; load with a readable file uses exactly the file; an unreadable file raises unless load_quiet, in which case the run starts from the fresh mesh; mesh sizes of wrong dimension are rejected.", "quantifier": "all argument combinations and file states", "why_tests_cant": "decision logic over all combinations", "anchors": ["nodefinder/search/_controller.py:Controller.create_state", "nodefinder/search/_controller.py:Controller.check_dimensions"]}
{"id": "C40", "title": "synchronous wrapper", "statement": "search.run returns exactly what the asynchronous search returns and raises exactly the exception it raises, whether or not an event loop is already running; but when it runs in a helper thread and the search ends with a non-Exception exit (e.g. KeyboardInterrupt, SystemExit), run never returns (finding).", "quantifier": "all outcomes of the search, all loop states", "why_tests_cant": "all outcomes", "anchors": ["nodefinder/search/_run.py:run", "nodefinder/search/_run.py:_run_in_thread"]}
{"id": "C41", "title": "clusters partition the positions", "statement": "The clusters are non-empty, pairwise disjoint, without repetitions, and their union is exactly the set of distinct input positions, independent of input order and duplicates.", "quantifier": "every list of positions, every set iteration order", "why_tests_cant": "all inputs", "anchors": ["nodefinder/identify/_cluster.py:create_clusters"]}
{"id": "C42", "title": "clusters are the chains of close positions", "statement": "Two positions are in the same cluster exactly if they are linked by a chain of input positions with consecutive distances <= feature_size.", "quantifier": "every list of positions, feature size, coordinate system", "why_tests_cant": "transitive closure over arbitrary chains", "anchors": ["nodefinder/identify/_cluster.py:create_clusters", "nodefinder/identify/_cluster.py:_create_graph"]}
{"id": "C43", "title": "cluster graph edges", "statement": "In a cluster graph two distinct positions are connected exactly if their distance is <= feature_size, the stored edge distance is that distance, and there are no self-loops or edges between clusters.", "quantifier": "every list of positions", "why_tests_cant": "all pairs", "anchors": ["nodefinder/identify/_cluster.py:_create_graph"]}
{"id": "C44", "title": "cluster dimension is a two-thirds majority", "statement": "calculate_dimension returns d only if at least two thirds of the evaluated positions have local dimension d (which is then unique), evaluates at least min(min_pos_evaluations, n) positions, and returns None only after evaluating all positions without a two-thirds majority; the value is between 0 and min(max_dim, space dimension).", "quantifier": "every evaluation order, all local dimensions", "why_tests_cant": "all orders and sizes", "anchors": ["nodefinder/identify/_dimension.py:calculate_dimension", "nodefinder/identify/_dimension.py:_check_count", "nodefinder/identify/_dimension.py:_get_dimension"]}
{"id": "C45", "title": "neighbour tuples are drawn without repetition", "statement": "The neighbour tuples used to estimate the dimension are distinct combinations of neighbours, and if no early decision is reached every combination is used exactly once.", "quantifier": "every outcome of the random generator, every number of neighbours", "why_tests_cant": "all random outcomes", "anchors": ["nodefinder/identify/_dimension.py:_has_dimension"]}
{"id": "C46", "title": "a straight line is never classified as a surface", "statement": "If all positions of a cluster lie on one straight line then the volume spanned by any two neighbours is zero, so the reported dimension is at most 1; a cluster in which every connecting vector is zero has dimension 0.", "quantifier": "every such cluster, positive feature size (exact arithmetic)", "why_tests_cant": "all point sets", "anchors": ["nodefinder/identify/_dimension.py:_get_volume", "nodefinder/identify/_dimension.py:_has_dimension"]}
{"id": "C47", "title": "ballistic line evaluation", "statement": "For a connected cluster with at least one edge the ballistic method terminates and, if it returns a graph, all nodes and edges of it are nodes and edges of the cluster and every cluster position is in it or adjacent to it.", "quantifier": "every cluster, every choice of next step", "why_tests_cant": "termination and coverage for all graphs", "anchors": ["nodefinder/identify/_evaluate/_line/_ballistic.py:_BallisticLineImpl"]}
{"id": "C48", "title": "shortest-path line evaluation", "statement": "For a connected cluster the shortest-path method terminates without failing its internal assertion and returns a connected subgraph of the cluster such that every cluster position is in it or adjacent to it.", "quantifier": "every cluster, every set iteration order, every shortest-path tie-break", "why_tests_cant": "termination, assertion safety for all graphs", "anchors": ["nodefinder/identify/_evaluate/_line/_shortest_path.py:_evaluate_line_shortest_path"]}
{"id": "C49", "title": "dominating-set line evaluation", "statement": "Patching holes makes the dominating set's subgraph a good approximation of the cluster: chosen positions connected by a path shorter than two feature sizes are afterwards connected by one at most twice as long, and nothing is removed; removing duplicate paths (for graphs with weights) loses no position and no connection, makes no path heavier, and leaves no edge for which there is a lighter path. But the method as a whole fails with TypeError, or with a no-path error, on every cluster of different positions for which at least two positions are chosen (finding).", "quantifier": "every cluster and choice of dominating set", "why_tests_cant": "all graphs", "anchors": ["nodefinder/identify/_evaluate/_line/_dominating_set.py:_evaluate_line_dominating_set", "nodefinder/identify/_evaluate/_line/_dominating_set.py:_remove_duplicate_paths", "nodefinder/identify/_evaluate/_line/_dominating_set.py:_patch_all_subgraph_holes"]}
{"id": "C50", "title": "line shape name", "statement": "shape_name is CLOSED LOOP exactly if every node of the line graph has degree 2, OPEN LINE exactly if two nodes have degree 1 and all others degree 2, UNKNOWN otherwise. For connected graphs without loops OPEN LINE holds exactly if the nodes can be arranged in a row with exactly neighbours in the row joined, CLOSED LOOP exactly if they can be arranged in a ring; an open line has one edge less than nodes, a closed loop as many, and the number of odd-degree nodes is even. Graphs that fall apart are named too: two separate triangles are one CLOSED LOOP (finding).", "quantifier": "every line graph", "why_tests_cant": "all graphs", "anchors": ["nodefinder/identify/result/_shapes.py:NodalLine.shape_name", "nodefinder/identify/_evaluate/_line/_run.py:_create_degree_count"]}
{"id": "C51", "title": "identification accounts for every node", "statement": "identify.run reports each distinct node position of the search result in exactly one result; two positions share a result exactly if a chain of steps of at most the feature size joins them. The shape is a NodalPoint at the average position for dimension 0, a NodalLine for dimension 1 (nodes among the positions, steps at most the feature size, no position further than that from the line) and None otherwise. With the ballistic and shortest_path methods no exception is raised; dominating_set can raise TypeError or NetworkXNoPath, and only if some object has dimension 1; an unknown method leaves lines without a shape. By default the feature size is three times the distance cutoff of the search. Passing the saved controller state without feature_size raises AttributeError (finding).", "quantifier": "every search result, coordinate system, positive feature size, set order, random draw and shortest path / dominating set returned by the library", "why_tests_cant": "all inputs", "anchors": ["nodefinder/identify/_run.py:run", "nodefinder/identify/_run.py:run_from_positions", "nodefinder/identify/_evaluate/_run.py:evaluate_cluster"]}
{"id": "C52", "title": "plotted line paths cover the line", "statement": "The paths drawn for a nodal line contain every edge not longer than twice the feature size exactly once and nothing else, for every order in which neighbours are listed; the decomposition always terminates. An open line without long edges is drawn as one path from end to end, a closed loop as one closed path. In a periodic box with sides above three feature sizes the edges left out are exactly those that pass across the boundary. Plotting any identification result in 2 or 3 dimensions succeeds and shows each result according to its shape; other dimensions raise AssertionError. (Finding: nodes without edges are not shown if the line has edges elsewhere.)", "quantifier": "every line graph, feature size, neighbour order and identification result", "why_tests_cant": "all graphs", "anchors": ["nodefinder/identify/plot.py:_get_graph_paths", "nodefinder/identify/plot.py:_get_next_starting_point"]}
{"id": "C53", "title": "saved identification results are restored faithfully", "statement": "Serialising a line and loading it gives the same nodes, edges and degree counts; an identification result keeps positions, dimension and shape.", "quantifier": "every line graph and result", "why_tests_cant": "round trip over all graphs", "anchors": ["nodefinder/identify/result/_shapes.py:NodalLine.to_hdf5", "nodefinder/identify/result/_shapes.py:NodalLine.from_hdf5", "nodefinder/identify/result/_containers.py:IdentificationResult"]}
{"id": "C54", "title": "cell lookup in floating point", "statement": "With IEEE double arithmetic the cell index of any fractional coordinate 0 <= f < 1 in a periodic box is in range for every admissible number of cells, so rounding in f * num_cells cannot cause an index error.", "quantifier": "all doubles in [0,1), all cell counts up to 100", "why_tests_cant": "about 2^62 inputs", "anchors": ["nodefinder/search/result/_cell_list.py:CellList.get_index"]}
{"id": "C55", "title": "every node found gets refined", "statement": "When a search with a refinement stencil returns, every node found during the run lies within dist_cutoff of a position around which the search was refined.", "quantifier": "every schedule, every outcome of every minimization, every configuration with a stencil", "why_tests_cant": "all interleavings of results and refinements", "anchors": ["nodefinder/search/_controller.py:Controller.process_result", "nodefinder/search/_controller.py:Controller.create_tasks"]}
{"id": "C56", "title": "the search built from the user's arguments", "statement": "A search constructed from given arguments uses the sorted limits, a distance cutoff of one third of feature_size, the given (or automatic) stencil multiplied by that cutoff, the given counts, and for the minimizer ftol = 5% of gap_threshold and xtol = 3% of the cutoff unless overridden. For valid arguments construction succeeds with one simplex per mesh point, every fair run of a periodic search with the default recheck settings ends, and no vertex of the automatic mesh stencil lies within the cutoff of the position it is placed around (periodic boxes: sides of at least 20/9 feature_size).", "quantifier": "all limits (in either order), mesh sizes, feature sizes, thresholds, stencils and minimizer options; all schedules; all positions", "why_tests_cant": "ranges over all argument combinations and all infinite schedules", "anchors": ["nodefinder/search/_controller.py:Controller.__init__", "nodefinder/search/_run.py:run_async", "nodefinder/search/refinement_stencil.py:get_auto_stencil"]}
{"id": "C57", "title": "from the arguments to the identified objects", "statement": "For a deterministic potential without NaN (with the periodicity of the box if it is periodic) and valid arguments: when search.run returns, identify.run on its result with the default feature size (ballistic or shortest_path) succeeds, uses exactly the feature_size given to the search, and accounts for exactly the positions of the minimizations with success and value not above gap_threshold; at every reported position the potential does not exceed the threshold, the position lies in a periodic box, and with refinement lies within a third of the feature size of a refined position.", "quantifier": "all valid arguments, potentials, schedules of minimizations and saves, orders of sets, random draws", "why_tests_cant": "ranges over all potentials, schedules and library choices", "anchors": ["nodefinder/search/_run.py:run_async", "nodefinder/identify/_run.py:run"]}
{"id": "C58", "title": "search plots show the data", "statement": "search.plot.points draws every node of a result exactly once at its position with its value (2 or 3 dimensions, AssertionError otherwise); search.plot.simplices draws exactly the edges of all simplices in the history of the given results, including both stages of a joined minimization.", "quantifier": "every search result", "why_tests_cant": "all results", "anchors": ["nodefinder/search/plot.py:points", "nodefinder/search/plot.py:simplices", "nodefinder/_common_plot.py:_setup_plot"]}
{"id": "C59", "title": "connecting vectors in floating point", "statement": "In double precision connecting_vector of a periodic box never raises AssertionError for boxes and positions of moderate size (up to 2^20), and returns the difference of the positions modulo the box up to rounding errors below 1e-9, at most half the box long.", "quantifier": "all doubles up to 2^20 in absolute value, up to 64 dimensions", "why_tests_cant": "all pairs of doubles; the errors of ten rounded operations add up", "anchors": ["nodefinder/coordinate_system.py:CoordinateSystem.connecting_vector", "nodefinder/coordinate_system.py:CoordinateSystem.distance"]}
{"id": "C60", "title": "minimization in floating point", "statement": "In double precision a minimization (Nelder-Mead, and the two-step minimization with a fake potential) makes only evaluations it records, reports the best value it has seen and the position it was found at, has a status code that tells why it ended, succeeds only when the final simplex meets the tolerances, keeps a faithful history, does a bounded amount of work, applies the derivative cutoff to value / longest edge of the final simplex (up to a relative 2^-40), and raises nothing but the exceptions of the function - whatever rounding, overflow or infinities do on the way.", "quantifier": "all functions (even inconsistent ones, with infinite values), starting simplices, tolerances and limits in IEEE binary64; NaN values only where stated", "why_tests_cant": "all doubles; rounding can make any comparison go either way", "anchors": ["nodefinder/search/_minimization/_nelder_mead.py:root_nelder_mead", "nodefinder/search/_minimization/_run.py:run_minimization"]}
{"id": "C61", "title": "the default search in two and three dimensions", "statement": "The automatic stencils of five simplices on a circle and thirty on a sphere consist of proper simplices no two of which have the same vertices, even if every coordinate is off by up to 1/100; so the default search has a valid configuration in every dimension, every fair run of the periodic default search ends, and a simplex placed around a node has no vertex within the distance cutoff of it (periodic boxes: sides of at least 20/9 feature_size).", "quantifier": "all limits, feature sizes, meshes, positions and schedules, every dimension, all rounding errors up to 1/100 in the stencil", "why_tests_cant": "trigonometric and QR expressions compared for all thirty simplices with all rounding errors; all schedules", "anchors": ["nodefinder/search/refinement_stencil.py:get_auto_stencil", "nodefinder/search/refinement_stencil.py:get_circle_stencil", "nodefinder/search/refinement_stencil.py:get_sphere_stencil", "nodefinder/search/_controller.py:Controller"]}
{"id": "C62", "title": "neighbour lookup in floating point", "statement": "In double precision the result container never fails on finite boxes, positions and cutoffs of reasonable size: the constructor, add_result, set_refined and the neighbour lookups return; every result is filed as node or rejected by the gap threshold and stored inside a periodic box; and a lookup misses no node (and no refined position) whose distance - computed, or exact to the nearest periodic image - is at most the distance cutoff reduced by a relative 2^-30, reports only stored nodes, and never the query position itself. Without the margin this is false (a node with computed distance below the cutoff can be missed).", "quantifier": "all finite double boxes of size 2^-400..2^400, positions up to 2^10 box sizes away, cutoffs 2^-400..2^400, all histories of operations, up to 64 dimensions for computed distances", "why_tests_cant": "all doubles at cell boundaries and all histories", "anchors": ["nodefinder/search/_cell_list.py:CellList", "nodefinder/search/result/_search_result_container.py:SearchResultContainer.get_neighbour_distance_iterator", "nodefinder/search/result/_search_result_container.py:SearchResultContainer.add_result", "nodefinder/coordinate_system.py:CoordinateSystem"]}
{"id": "C63", "title": "duplicate checks in floating point", "statement": "In double precision, in every state of the container: the fake potential is infinite or zero, infinite only if some node is closer than its width and always if one is closer than its width and the reduced cutoff (by a relative 2^-30); a position to refine is rejected only if a refined position is closer than dist_cutoff, and accepted only if none is within the reduced cutoff, so any two refined positions stay separated by more than the reduced cutoff whatever arrives in whatever order; a starting simplex is discarded only if more than the allowed number of vertices are closer than the cutoff to a node and always if more than that number are within the reduced cutoff.", "quantifier": "as C62; all sequences of results and refinements, all simplices, all widths", "why_tests_cant": "all doubles, all histories", "anchors": ["nodefinder/search/_fake_potential.py:FakePotential.__call__", "nodefinder/search/_controller.py:Controller._check_pos_refinement", "nodefinder/search/_controller.py:Controller._check_simplex", "nodefinder/search/_controller.py:Controller.create_tasks"]}
{"id": "C64", "title": "the search in floating point", "statement": "The guarantees of whole searches hold with all coordinates, distances and values in double precision: never more than num_minimize_parallel minimizations at once; every scheduled simplex is waiting, being minimized, recorded or discarded, in exactly one way, and is minimized at most once; every result is stored exactly once; positions to refine are never lost, and when the search returns every node found has a refined position closer than the cutoff; refined positions stay separated, so the work is bounded by a number depending only on box and cutoff; every fair run ends (with num_minimize_parallel >= 1), periodic or not; exceptions surface at the next turn; restarting from the state at any moment continues with the same results and exactly the unfinished work. This needs a stencil whose simplices are resolved by doubles of the size of the limits; with a smaller feature size the limit is exceeded and the search ends with KeyError.", "quantifier": "as C62: all boxes, cutoffs and resolved stencils, all start states, all schedules of minimizations ending at any finite positions (up to 512 box sizes away) with any values or failing", "why_tests_cant": "all schedules, all doubles, infinite runs", "anchors": ["nodefinder/search/_controller.py:Controller.create_tasks", "nodefinder/search/_controller.py:Controller.run_simplex", "nodefinder/search/_controller.py:Controller.process_result", "nodefinder/search/_controller.py:Controller.create_state", "nodefinder/search/_queue.py:SimplexQueue"]}
{"id": "C65", "title": "the initial mesh in floating point", "statement": "For limits and mesh sizes that doubles resolve, the initial mesh computed in double precision has one simplex for every mesh point and no other; coordinates are strictly increasing, inside the box, start at the lower limit and, without periodicity, end at the upper limit; the simplices are all different when queued, so that a fresh search starts with exactly them waiting and everything proved about searches in doubles applies. A mesh size of the wrong length is a ValueError. In a box of only a few spacings of doubles the mesh points coincide: more minimizations run than allowed and the search ends with KeyError.", "quantifier": "all boxes in double precision, all mesh sizes up to the resolution of the box, periodic or not, any dimension", "why_tests_cant": "all limits and mesh sizes, rounding of every coordinate", "anchors": ["nodefinder/search/_mesh_helper.py:_generate_mesh_simplices", "nodefinder/search/_controller.py:Controller.get_initial_simplices", "nodefinder/search/_controller.py:Controller.create_state"]}
{"id": "C66", "title": "the refinement stencils in floating point", "statement": "The default refinement stencil, with cosines, sines and QR decompositions computed in doubles with an error of up to 1/100, and every mesh stencil (any mesh size, any scale), multiplied by the cutoff: the simplices stay different and in reach wherever they are placed, provided the cutoff is resolved by doubles of the size of the limits. So a search with default arguments on a resolved mesh satisfies everything proved about searches in doubles, and every fair run of it ends. A mesh stencil has one simplex for every mesh point other than the origin.", "quantifier": "all boxes and cutoffs in double precision, all stencils within 1/100 of the exact ones, all QR decompositions, all mesh sizes and scales, all positions", "why_tests_cant": "all rounding errors, all positions to which the stencil is moved", "anchors": ["nodefinder/search/refinement_stencil.py:get_auto_stencil", "nodefinder/search/refinement_stencil.py:get_circle_stencil", "nodefinder/search/refinement_stencil.py:get_sphere_stencil", "nodefinder/search/refinement_stencil.py:get_mesh_stencil", "nodefinder/search/_controller.py:Controller"]}
{"id": "C67", "title": "searches in floating point report genuine near-zeros of the potential", "statement": "In a complete search computed in double precision, minimizations included (with or without the fake potential, for potentials whose answers may vary or be exceptions), every reported node was known at the start or is the normalised image, up to a stated rounding error, of a position at which the potential was evaluated, with the value returned there and not above gap_threshold. If the potential computes a (periodic, Lipschitz) real function up to eps, then at every reported node the true function is within eps plus the rounding error of the reported value and above the threshold by at most that much. The search raises only what the potential raised, or what the fake potential raised at a position that is not finite or more than 1024 box sizes away; every minimization it starts ends.", "quantifier": "all searches in good double-precision settings, all schedules, all potentials (possibly changing from call to call), minimization parameters, argsort and min implementations", "why_tests_cant": "all potentials and schedules, and rounding of all evaluated positions", "anchors": ["nodefinder/search/_controller.py:Controller.run_simplex", "nodefinder/search/_minimization/_run.py:run_minimization", "nodefinder/search/_minimization/_nelder_mead.py:root_nelder_mead", "nodefinder/search/result/_search_result_container.py:SearchResultContainer.add_result"]}
{"id": "C68", "title": "isolated nodes are reported as nodal points", "statement": "If the positions given to identification all lie within r of one of a set of isolated centres (r at most an eighth of the feature size, centres further apart than feature size + 2r, periodic box longer than half the feature size in every direction), the identification returns exactly one object for each centre with a position near it: dimension 0, a nodal point within r of the centre (across the periodic boundary if need be), consisting of exactly the positions near that centre; and nothing else. In particular, after a search for a potential that stays above gap_threshold except within r of isolated points, identify.run reports exactly the points that a minimization ended at.", "quantifier": "all boxes, positions, centres, radii, feature sizes, evaluation methods, set orders, random choices; all potentials, arguments and schedules of the search", "why_tests_cant": "all position sets and random choices", "anchors": ["nodefinder/identify/_run.py:run", "nodefinder/identify/_cluster.py:create_clusters", "nodefinder/identify/_dimension.py:calculate_dimension", "nodefinder/identify/_evaluate/_point.py:evaluate_point", "nodefinder/coordinate_system.py:CoordinateSystem.average"]}
{"id": "C69", "title": "clusters in double precision", "statement": "Clustering the positions in double precision: each given position is in exactly one cluster, clusters contain only given positions, none twice (0.0 and -0.0 are the same). The computed distance of two positions is never NaN or infinite and differs from the exact distance (to the nearest periodic image) by at most a relative 2^-43 plus 2^-39 of the box sizes. Positions whose exact distance is below feature_size by more than this margin are always in the same cluster; positions of a cluster are connected by steps of at most feature_size plus the margin; every edge carries the computed distance of its ends. If no distance is within the margin of feature_size, the clusters are the exact single-linkage clusters and do not depend on the iteration order of the set. Without this they can: periodic distances are not symmetric in floating point, and positions 0 and 1/4 + 2^-54 in the box [0, 1] with feature_size 1/4 form one cluster or two depending on which comes first (finding).", "quantifier": "all boxes of reasonable size, feature sizes, position lists with coordinates up to 2^10 box sizes outside, iteration orders", "why_tests_cant": "all doubles, all orders", "anchors": ["nodefinder/identify/_cluster.py:create_clusters", "nodefinder/identify/_cluster.py:_create_graph", "nodefinder/coordinate_system.py:CoordinateSystem.distance"]}
{"id": "C70", "title": "a minimization makes exactly the Nelder-Mead steps", "statement": "A minimization evaluates the vertices of the initial simplex once each, and then makes Nelder-Mead iterations only: each starts from the vertices ordered by value, evaluates the reflection of the worst vertex in the centroid of the others and, depending on how its value compares with the best, second worst and worst vertex, the expansion (factor 2), the outside or inside contraction (1/2) or the halfway points to the best vertex, and replaces the worst vertex (or all but the best). Nothing else is evaluated; an iteration is only started while the numbers of evaluations and iterations are below their limits, the derivative cutoff is not exceeded and the tolerances are not met. The number of iterations, the final position and the history reported are those of this chain. In double precision every candidate is within 2^-45 of the exact one relative to the largest coordinate (2^-50 for a shrinkage).", "quantifier": "all functions (also non-deterministic, returning NaN or infinity), initial simplices of any dimension, parameters, orders of equal values in argsort", "why_tests_cant": "unbounded number of iterations, all functions and comparison outcomes", "anchors": ["nodefinder/search/_minimization/_nelder_mead.py:root_nelder_mead"]}
{"id": "C71", "title": "what the local dimension of a position means", "statement": "The local dimension d of a cluster position passes the volume test in every dimension 1..d and fails it in d + 1 (unless d is the given maximum or the dimension of the space). The test in dimension k takes different combinations of k neighbours of the position, calculates the volumes of the parallelepipeds spanned by the (periodic, shortest) vectors connecting them with the position, and is passed iff there are any and their mean exceeds half of the expected volume for k independent vectors uniformly distributed in a k-dimensional ball with the feature size as radius. Either all combinations are used, or at least the minimum number of evaluations (the number of neighbours by default) (and two), stopping as soon as the mean is more than two standard errors away from the limit.", "quantifier": "all neighbour graphs, positions, feature sizes, maximum dimensions, minimum numbers of evaluations and random draws", "why_tests_cant": "all graphs and random draws; the limits are real integrals", "anchors": ["nodefinder/identify/_dimension.py:_get_dimension", "nodefinder/identify/_dimension.py:_has_dimension", "nodefinder/identify/_dimension.py:_get_volume"]}
{"id": "C72", "title": "isolated nodes are identified as nodal points, in double precision", "statement": "In IEEE double precision: if all positions lie within r of centres that are further than the feature size plus 2 r from each other, with r at most an eighth of the feature size (both with an allowance of 2^-25 of the feature size plus box sizes), then identification raises nothing and returns exactly one object for each centre that has positions near it, a nodal point consisting of the positions within r of the centre, whose position is within r plus a rounding error (about n 2^-51 of the sizes for n positions) of the centre and inside the box if it is periodic. This does not depend on the order of sets, on random choices, on the order in which numpy adds, or on rounding errors of the singular values. In particular this is what a search from scratch followed by identify.run returns for a gap that is below the threshold only near isolated points.", "quantifier": "all boxes of at most 64 dimensions with moderate sizes (up to 2^20), feature sizes, numbers and places of centres and positions, set orders, random choices, summation orders, searches (schedules, potentials)", "why_tests_cant": "all placements, orders and roundings; a test can check a few runs", "anchors": ["nodefinder/identify/_run.py:run", "nodefinder/identify/_run.py:run_from_positions", "nodefinder/identify/_cluster.py:create_clusters", "nodefinder/identify/_dimension.py:calculate_dimension", "nodefinder/identify/_evaluate/_point.py:evaluate_point", "nodefinder/coordinate_system.py:CoordinateSystem.average"]}
{"id": "C73", "title": "lines, and the whole identification, in double precision", "statement": "In IEEE double precision, for every list of positions in and around the box: the shortest-path method evaluates every cluster without exception, to a connected line that consists of positions and edges of the cluster (between positions at most the feature size apart, up to rounding), with every position of the cluster on it or adjacent to it. The ballistic method gives such a line (not necessarily connected), of edges with non-zero computed length, for clusters where every position has a neighbour that is clearly another position. The identification as a whole raises nothing and returns one object for each cluster, with its positions: a point for dimension 0, such a line for dimension 1, nothing for higher or undetermined dimensions. This does not depend on the order of sets, on random choices, on how numpy, BLAS and LAPACK round, or on which paths networkx chooses. Refuted without 'clearly another': a position linked to its own periodic image only (which rounding makes possible inside a line) ends the ballistic identification with AssertionError.", "quantifier": "all boxes of at most 64 dimensions, feature sizes, positions, set orders, random choices, results of sums, matrix products, norms, singular values and paths; all states of all searches", "why_tests_cant": "all placements, orders and roundings; a test can check a few runs", "anchors": ["nodefinder/identify/_evaluate/_line/_shortest_path.py:_evaluate_line_shortest_path", "nodefinder/identify/_evaluate/_line/_ballistic.py:_BallisticLineImpl", "nodefinder/identify/_run.py:run_from_positions", "nodefinder/identify/_run.py:run", "nodefinder/identify/_dimension.py:calculate_dimension", "nodefinder/identify/_evaluate/_run.py:evaluate_cluster"]}
{"id": "C74", "title": "what the local dimension means, in double precision", "statement": "In IEEE double precision, the local dimension calculated for a position of a cluster is the number of tests it passes, for dimensions 1, 2, 3 up to the first failure and the dimension of space. A test for dimension k calculates the volumes of the parallelepipeds spanned by the vectors connecting different choices of k neighbours with the position (all choices, or at least min_neighbour_evaluations and at least two of them, stopping as soon as the mean is more than two standard errors from the limit, up to 2^-13 of the limit); it is passed only if the mean of the exact volumes is above (1 - 2^-17) times, and failed only if there is none or the mean is at most (1 + 2^-17) times half of the mean volume for points drawn uniformly from a ball with the feature size as radius. In particular a position with neighbours which are all further away than a quarter of the feature size has at least dimension 1; one whose neighbours are all within 1/15 of the feature size of a straight line through it at most 1, within 1/40 of a plane at most 2; and a cluster of which all positions are of the first two kinds has dimension 1 and is evaluated as a line.", "quantifier": "all boxes of at most 64 dimensions, feature sizes from 2^-15 of the size of the box, positions, set orders, random choices, orders of summation, singular values and powers accurate up to rounding; positions with at most 100 neighbours", "why_tests_cant": "all placements, orders and roundings; a test can check a few runs", "anchors": ["nodefinder/identify/_dimension.py:_get_dimension", "nodefinder/identify/_dimension.py:_has_dimension", "nodefinder/identify/_dimension.py:_get_volume", "nodefinder/identify/_dimension.py:calculate_dimension", "nodefinder/coordinate_system.py:connecting_vector"]}
{"id": "C75", "title": "restarting again and again moves no node, in double precision", "statement": "In IEEE double precision, a search that is restarted any number of times, each time from the state of the search before at any moment, has at every moment exactly one node for each node found since the beginning and one rejected result for each other one, in the order in which they were found; each differs from what the minimization returned in its position only, and each coordinate of the position is the original one up to a multiple of the box size and twice the rounding error of a single normalisation, however many restarts there were. A result that has gone through one restart is never changed again by later ones, bit for bit (the first restart can move it, e.g. from the upper limit of the box to the lower one or by one unit in the last place; without periodicity nothing changes at all).", "quantifier": "all periodic and open boxes of reasonable size, positions within 512 box sizes, start states, sequences of events, moments and numbers of restarts, set orders and meshes", "why_tests_cant": "whether repeated normalisation settles depends on ties and binade boundaries in the rounding of sums and differences of a few particular limits and coordinates; the number of restarts is unbounded", "anchors": ["nodefinder/coordinate_system.py: normalize_position", "nodefinder/search/result/_search_result_container.py: SearchResultContainer.__init__, add_result", "nodefinder/search/_controller.py: Controller.create_state"]}
{"id": "C76", "title": "the plot of a refinement stencil", "statement": "search.plot.stencil, given an array of simplices in two or three dimensions, sets the limits of each axis to the smallest and the largest coordinate of any vertex, draws every edge of every simplex, the origin if origin_settings are given, and, if plot_sphere is set, in two dimensions a closed curve of 200 points on the unit circle whose neighbouring points are at most 1/30 apart in each coordinate and which comes within 1/60 of each point of the circle, in three dimensions a surface of points on the unit sphere which comes within 1/40 of each of its points; it draws nothing else. In other dimensions, or for an empty array, it raises an exception.", "quantifier": "all arrays of simplices with vertices of any dimension, with and without origin and sphere", "why_tests_cant": "that the curve and the surface cover the whole circle and sphere is a statement about all their points; edges and limits are claimed for arbitrarily many simplices", "anchors": ["nodefinder/search/plot.py: stencil, _plot_simplex", "nodefinder/_common_plot.py: _setup_plot"]}
{"id": "C77", "title": "points and lines are told apart, in double precision", "statement": "In IEEE double precision: if the positions given to identification fall into groups that are further apart than the feature size, each of them either around a point (within an eighth of the feature size) or along a possibly curved line (at least two positions, further apart than a quarter and connected by steps shorter than the feature size, the neighbours of each position within a fifteenth of the feature size of a straight line through it), then identification raises nothing and returns exactly one object for each group, in some order, with exactly its positions: a nodal point near the centre for a group around a point; a nodal line for a group along a line, which consists of positions of the group, with edges between positions at most the feature size apart, passes within the feature size of every position, and is connected with the shortest_path method. This holds for both methods, any order of sets, random choices, orders of summation and rounding errors of the libraries, and in particular for the positions found by a search.", "quantifier": "all sets of positions which fall into such groups, boxes with and without periodicity, dimensions up to 64, feature sizes not below 2^-15 of the box, both line methods, all set orders and random choices", "why_tests_cant": "the claim is about every arrangement of points and lines and every choice of the random sampling; a wrong constant in the volume test, or a neighbour lost across the periodic boundary, shows only for some of them", "anchors": ["nodefinder/identify/_run.py: run_from_positions", "nodefinder/identify/_cluster.py: create_clusters", "nodefinder/identify/_dimension.py: calculate_dimension", "nodefinder/identify/_evaluate/_run.py: evaluate_cluster", "nodefinder/identify/_evaluate/_line/_run.py"]}
{"id": "C78", "title": "the coordinate system in double precision", "statement": "In IEEE double precision a CoordinateSystem behaves as documented up to rounding errors: limits may be given in either order and yield a positive size; normalize_position returns the position itself without periodicity, and with periodicity a finite position that is not below the lower limits, not above the upper limits by more than rounding explains, and differs from the original by whole multiples of the size, up to rounding; get_pos(get_frac(p)) is p up to rounding (and multiples of the size with periodicity) and fractions of a periodic system are between 0 and 1; distance is finite, not negative, the length of the shortest connection up to rounding, exactly zero for equal positions, symmetric and subadditive up to rounding; normalising a position does not change its distance from another one beyond rounding. (Finding: in the box [0.3, 0.9] a position just below 0.3 is normalised to a number above 0.9.)", "quantifier": "all boxes with limits up to 2^400 and sizes from 2^-400, up to 64 dimensions (distance), with and without periodicity, all finite positions up to 1024 box sizes away", "why_tests_cant": "the bounds hold for every double, and the exceptions (remainders rounded up to the size, sums rounded over the limit) occur for few of 2^64 values", "anchors": ["nodefinder/coordinate_system.py: CoordinateSystem.__init__, get_frac, get_pos, distance, normalize_position"]}
{"id": "C79", "title": "plots of identified objects in double precision", "statement": "With double precision coordinates identify.plot draws an identified line completely and without additions: the decomposition of the line into paths terminates whatever the order of the neighbours, every edge is drawn once or not at all and nothing else is drawn; edges up to twice the feature size are drawn and longer ones are not, where only within a relative distance of 2^-40 of the limit rounding decides; without a feature size every edge is drawn; an open line without long steps is one path from end to end, a ring one closed path. In a periodic box with sides of more than three feature sizes exactly the edges that pass across the boundary are left out, without periodicity none. In two or three dimensions everything that the identification of double precision positions returns can be plotted, every object is shown, and identified lines are cut exactly at the boundary; in other dimensions the plot fails with an assertion.", "quantifier": "all graphs without parallel edges with finite coordinates up to 2^400 in up to 64 dimensions, all feature sizes from 2^-400 to 2^1000, all orders of the neighbours, every norm with relative error up to 2^-42; all results of the identification of positions of moderate size", "why_tests_cant": "the order of neighbours and the shape of the graph vary without bound, and the comparison of lengths is made with rounded numbers", "anchors": ["nodefinder/identify/plot.py: result, _plot_positions, nodal_point, nodal_line, _get_graph_paths, _get_next_starting_point", "nodefinder/_common_plot.py: _setup_plot"]}
