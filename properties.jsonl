{"id": "C01", "title": "Reading a multi-file snapshot assigns every entry to exactly one rank", "statement": "When a snapshot split over several files is read by n ranks, the file regions handed to rank 0, 1, ..., n-1, read in that order, are exactly all entries of file 0, then file 1, ... in order: no entry is skipped, none is read twice, no region reaches past the end of its file, and the assignment never panics.", "quantifier": "every list of file sizes (including empty files anywhere, and no files) and every number of ranks >= 1", "why_tests_cant": "Tests check seven hand-picked layouts; the loop has carries across empty and exactly-consumed files whose combinations are unbounded.", "anchors": ["src/io/file_distribution.rs: get_regions_from, get_rank_assignment, get_input_rank_assignment"]}
{"id": "C02", "title": "Writing a snapshot places every rank's entries once, in rank order, in balanced files", "statement": "For any per-rank entry counts and any number of output files >= 1, the regions assigned to the ranks cover every slot of every output file exactly once in rank order, rank r receives exactly as many slots as it has entries, and the file sizes are total/n each with the remainder in the last file. The dataset size each file is created with equals the number of entries written to it.", "quantifier": "every list of per-rank counts (including ranks with zero entries) and every number of files >= 1", "why_tests_cant": "The writer and the dataset creator compute the layout independently; agreement for all count vectors cannot be sampled.", "anchors": ["src/io/file_distribution.rs: get_output_rank_assignment", "src/io/output/mod.rs: create_file_system, create_dataset, write_dataset_to_files"]}
{"id": "C03", "title": "Chunked reads and chunked exchanges cover the data exactly", "statement": "Splitting a region into chunks for reading yields consecutive chunks whose concatenation is the region, none larger than the limit. Splitting a list over all ranks into rounds gives the same number of rounds on every rank, and the rounds concatenated are the original list.", "quantifier": "every region size and chunk limit >= 1; every vector of per-rank list lengths", "why_tests_cant": "A rank with a different number of rounds deadlocks the collective; this depends on every combination of lengths on all ranks.", "anchors": ["src/io/input/mod.rs: get_chunk_sizes", "src/communication/exchange_communicator.rs: divide_into_chunks_with_same_num_globally, div_ceil"]}
{"id": "C04", "title": "Ranks write a snapshot one at a time and never deadlock on it", "statement": "During snapshot output no two ranks are between their 'begin writing' and 'end writing' points at the same time, ranks write in rank order, and every rank passes through: no interleaving leaves a rank waiting at a barrier forever.", "quantifier": "every number of ranks and every interleaving of the ranks' steps", "why_tests_cant": "Mutual exclusion over all schedules; a test run exhibits one schedule.", "anchors": ["src/io/output/mod.rs: init_wait_for_other_ranks, finish_wait_for_other_ranks", "src/mpi_log.rs: start_barrier, end_barrier"]}
{"id": "C05", "title": "One run of sub-timestepped sweeps advances every cell by the same time", "statement": "During one run of sweeps, a cell on timestep level l is updated exactly 2^(l - lowest allowed level) times, each update with the timestep of its own level, so the total chemistry time of every cell equals the time the run reports as elapsed. Consecutive updates of a level are evenly spaced, and skipping levels without cells does not change this.", "quantifier": "every number of levels below 32, every lowest allowed level, every level assignment of cells", "why_tests_cant": "Holds for all numbers of levels; tests list five sequences for one size.", "anchors": ["src/sweep/timestep_state.rs: iter_levels_in_sweep_order, lowest_active_from_iteration, current_max_timestep", "src/sweep/mod.rs: run_sweeps, single_sweep, update_chemistry"]}
{"id": "C06", "title": "Timestep levels stay in range and start-up realigns with the maximum timestep", "statement": "At every moment of a simulation the level of every cell lies between the lowest currently allowed level and the number of levels minus one. The elapsed times of the first runs (two at the smallest step, then doubling) add up to exactly the maximum timestep when the largest step first becomes allowed, so later runs end on multiples of the maximum timestep.", "quantifier": "every number of levels, every sequence of runs and every sequence of desired timesteps", "why_tests_cant": "History property over unbounded run sequences.", "anchors": ["src/sweep/timestep_state.rs: TimestepState::new, advance_allowed_levels, get_desired_level_from_desired_timestep", "src/sweep/mod.rs: update_timestep_levels"]}
{"id": "C07", "title": "The chosen timestep never exceeds the desired one unless a level limit forces it", "statement": "The timestep of the level chosen for a cell is at most the desired timestep, except when the finest level is already used; and it is more than half of the desired step unless the coarsest allowed level was chosen.", "quantifier": "every positive maximum and desired timestep, every number of levels and lowest allowed level", "why_tests_cant": "Quantifies over all real ratios; boundary cases at powers of two are easy to get wrong.", "anchors": ["src/sweep/timestep_level.rs: from_max_timestep_and_desired_timestep", "src/sweep/timestep_state.rs: get_desired_level_from_desired_timestep"]}
{"id": "C08", "title": "Iterating the active cells yields exactly the cells on an active level, once each", "statement": "After any sequence of level changes followed by a re-binning, iterating the active cells of a level yields every cell whose level is at least that level exactly once and no other cell; changing a level invalidates the iteration until re-binning, and ids, items and levels stay attached to each other.", "quantifier": "every initial population, every sequence of level changes and re-binnings, every level", "why_tests_cant": "Invariant over arbitrary operation sequences.", "anchors": ["src/sweep/active_list.rs: ActiveList::new, enumerate_active, set_level, update_bins"]}
{"id": "C09", "title": "A sweep solves every active cell exactly once per direction", "statement": "During one sweep every (active cell, direction) pair is solved exactly once and no inactive cell is solved, whatever the order in which tasks are taken, messages are delivered, sends complete and ranks are scheduled. The bookkeeping counters never go below zero, and when a rank leaves the sweep it has no queued task, no unsent and no unreceived message.", "quantifier": "every grid on every number of ranks with matching neighbour relations, every set of active cells, every interleaving of ranks, task orders, message delays and send-completion delays", "why_tests_cant": "Distributed schedule space is unbounded; MPI tests exercise a handful of interleavings.", "anchors": ["src/sweep/mod.rs: init_counts, get_initial_tasks, solve, solve_task, handle_local_neighbour, handle_remote_neighbour, receive_messages_from_rank", "src/sweep/communicator.rs: try_send_all, update_pending_requests, count_remaining_to_send"]}
{"id": "C10", "title": "A sweep never deadlocks", "statement": "If the upwind relation between active cells is acyclic in each direction, then from every reachable state in which some rank has not left the sweep, some rank can make progress, only finitely many progress steps exist, and under any fair scheduling all ranks leave the sweep. This holds even if a send only completes once the receiver has taken the message.", "quantifier": "every acyclic grid, every number of ranks, every reachable state, every fair schedule, every batch size", "why_tests_cant": "Liveness over all schedules.", "anchors": ["src/sweep/mod.rs: solve, receive_all_messages", "src/sweep/communicator.rs: try_send_all"]}
{"id": "C11", "title": "Messages of consecutive sweeps are never confused", "statement": "Ranks are not synchronised between sweeps of different levels, yet a rank never consumes a message of another sweep than the one it is in, and every batch of messages belongs to a single sweep.", "quantifier": "every sequence of sweeps, every relative speed of ranks, every batching of messages", "why_tests_cant": "Needs a rank to run ahead by whole sweeps, which small tests never exhibit.", "anchors": ["src/sweep/mod.rs: run_sweeps, solve, receive_all_messages, receive_messages_from_rank", "src/sweep/communicator.rs"]}
{"id": "C12", "title": "Sweep results do not depend on scheduling", "statement": "On a grid without periodic connections, the rates in all cells after a sweep are uniquely determined by the state before it: they satisfy the upwind transport recursion, independent of task order, batch size, message timing and rank speed (in exact arithmetic).", "quantifier": "every grid without periodic connections, every active set, every pair of complete executions", "why_tests_cant": "Compares all pairs of executions.", "anchors": ["src/sweep/mod.rs: solve_task, get_outgoing_rate, handle_local_neighbour", "src/sweep/site.rs: get_rate"]}
{"id": "C13", "title": "Photons leaving a cell are split without loss over its downwind faces", "statement": "Whenever a cell is solved, the corrections passed on through its downwind faces (including those leaving through boundaries) add up to the change of its outgoing rate, each is proportional to the effective face area, and a cell without downwind faces passes nothing on. After a sweep with all cells active, each cell's incoming rate equals the sum of its upwind neighbours' outgoing shares.", "quantifier": "every cell geometry, direction and rate (exact arithmetic), every sweep history with all cells active", "why_tests_cant": "Algebraic identity over all geometries and an invariant over all histories.", "anchors": ["src/sweep/mod.rs: solve_task", "src/sweep/grid/cell.rs: points_downwind, points_upwind, iter_downwind_faces"]}
{"id": "C14", "title": "Results do not depend on how cells are distributed over ranks", "statement": "For a fixed grid and fixed timestep levels, the incoming rates of all cells after any sequence of sweeps are the same whether the grid is on one rank or distributed over several.", "quantifier": "every grid, every distribution, every sequence of sweep levels", "why_tests_cant": "Depends on whether corrections to inactive remote cells are kept, visible only for mixed-level cells across a rank boundary.", "anchors": ["src/sweep/mod.rs: handle_local_neighbour, handle_remote_neighbour, handle_remote_periodic_neighbour"]}
{"id": "C15", "title": "Sweep results on periodic grids do not depend on scheduling", "statement": "On a grid with periodic connections the rates after one sweep are the same for every task order and message timing.", "quantifier": "every periodic grid and every pair of complete executions", "why_tests_cant": "Compares all pairs of executions; the periodic contribution is not ordered by the dependency counters.", "anchors": ["src/sweep/mod.rs: handle_local_periodic_neighbour", "src/sweep/site.rs: get_rate"]}
{"id": "C16", "title": "Rotating the sweep directions preserves the total rate of every cell", "statement": "After rotating the set of directions, the rates of a cell are re-distributed over the new directions such that the sum over directions is unchanged.", "quantifier": "every direction set, every rotation and every rate vector", "why_tests_cant": "Which old direction is nearest to which new one depends on the rotation; loss only occurs when two old directions map to the same new one.", "anchors": ["src/sweep/direction/mod.rs: kernel_f, remap, rotate"]}
{"id": "C17", "title": "Every particle key is owned by exactly one rank", "statement": "After a domain decomposition into n ranks every key in the decomposed range belongs to exactly one rank in 0..n, keys owned by a rank form a contiguous interval, and the ranks' intervals are in increasing order.", "quantifier": "every set of keys with arbitrary work weights, every number of ranks", "why_tests_cant": "Depends on the cut search over all key multisets.", "anchors": ["src/domain/decomposition.rs: Decomposition::new, get_owning_rank, find_segments, find_cut_for_next_segment"]}
{"id": "C18", "title": "The cut search terminates and hits the load target", "statement": "The search for a domain boundary stops after at most a fixed number of bisections for every load distribution, and the returned cut satisfies the load target or is the key at which the load jumps across it.", "quantifier": "every monotone load function and every key range", "why_tests_cant": "Quantifies over all load functions.", "anchors": ["src/domain/decomposition.rs: binary_search, get_search_result", "src/domain/key.rs: middle"]}
{"id": "C19", "title": "Exchanging particles conserves them", "statement": "Redistributing particles over ranks neither loses nor duplicates a particle: the multiset of particles over all ranks is unchanged, each ends up on the rank chosen for it, and all component values of a particle stay together.", "quantifier": "every population on every number of ranks, every assignment of target ranks, every set of components", "why_tests_cant": "Components are exchanged in separate rounds and re-joined by position; agreement for all populations cannot be sampled.", "anchors": ["src/domain/exchange_data_plugin.rs", "src/communication/exchange_communicator.rs: exchange_all"]}
{"id": "C20", "title": "An all-to-all exchange delivers exactly what was sent", "statement": "After an exchange every rank holds, from each other rank, exactly the data that rank addressed to it in this exchange (an empty list if nothing), and consecutive exchanges are never mixed, whatever the relative speed of ranks.", "quantifier": "every data assignment, every number of consecutive exchanges, every interleaving", "why_tests_cant": "Schedule space plus arbitrary data.", "anchors": ["src/communication/exchange_communicator.rs: exchange_all, receive_vec, empty_send_to_others"]}
{"id": "C21", "title": "Per-rank containers behave like a map from ranks", "statement": "Inserting, reading, iterating, collecting and draining data by rank behaves like a finite map keyed by rank: reading returns the last value inserted, iteration yields each present rank once in increasing order, and draining leaves the container empty.", "quantifier": "every sequence of operations", "why_tests_cant": "Refinement over unbounded operation sequences.", "anchors": ["src/communication/data_by_rank.rs"]}
{"id": "C22", "title": "2D Hilbert keys are a bijection that follows a connected path", "statement": "The 2D space-filling-curve key maps the integer grid one-to-one onto the key range, and consecutive keys belong to grid-adjacent points, so a contiguous key interval is a connected region.", "quantifier": "every curve depth and every pair of grid points", "why_tests_cant": "Proved for all 2^64 points by induction over the depth, tests sample.", "anchors": ["src/peano_hilbert.rs: from_integer_pos (2D), rot"]}
{"id": "C23", "title": "3D Hilbert keys are a bijection that follows a connected path", "statement": "The table-driven 3D space-filling-curve key maps the integer grid one-to-one onto the key range and consecutive keys belong to grid-adjacent points.", "quantifier": "every depth and every pair of 3D grid points", "why_tests_cant": "Relies on two 48x8 tables; 2^126 points.", "anchors": ["src/peano_hilbert.rs: ROTATION_TABLE, SUBPIX_TABLE, from_integer_pos (3D)"]}
{"id": "C24", "title": "The tree holds every inserted particle exactly once", "statement": "After building the tree from any list of particles, iterating it yields each particle exactly once, every particle lies in a node whose extent contains it, per-node summary counts equal the number of particles below the node, leaves above the maximum depth hold at most the configured number, and construction terminates even for coincident particles.", "quantifier": "every particle list and every tree configuration", "why_tests_cant": "Invariant over arbitrary insertion sequences.", "anchors": ["src/quadtree/mod.rs: QuadTree::new, insert, insert_new, subdivide", "src/quadtree/radius_search.rs: TreeIter"]}
{"id": "C25", "title": "Tree radius search returns exactly the particles within the radius", "statement": "The tree search returns exactly those particles whose periodic distance to the query point is below the radius: pruning by bounding boxes never discards a hit, also across periodic boundaries and for query points outside the box.", "quantifier": "every tree built from particles in the box, every query point and radius", "why_tests_cant": "Pruning soundness over all geometries.", "anchors": ["src/quadtree/radius_search.rs: iter_particles_in_radius, bounding_boxes_overlap_periodic, TreeIter", "src/simulation_box.rs: periodic_distance_vec"]}
{"id": "C26", "title": "Periodic wrapping lands in the box and keeps the point's class", "statement": "Wrapping a position yields a point in the half-open box that differs from the original by whole box lengths; wrapping twice changes nothing; the minimal-image distance of two points in the box is symmetric and not larger than for any other image; the listed periodic images are exactly the shifts by -1, 0, 1 box lengths.", "quantifier": "every box and every position (exact arithmetic)", "why_tests_cant": "Algebraic law over all reals.", "anchors": ["src/simulation_box.rs: periodic_wrap, periodic_distance_vec, iter_periodic_images"]}
{"id": "C27", "title": "Cartesian grids are consistent across ranks", "statement": "For a regular grid spread over ranks, face adjacency is mutual: if cell a lists b as a neighbour, b lists a with the opposite normal and equal area, every cell has one face per side, local ids are 0..n-1 on each rank without gaps, and each rank knows exactly the remote cells adjacent to its own.", "quantifier": "every grid size, every rank assignment of cells, periodic or not", "why_tests_cant": "Needed as precondition of the sweep for all sizes and distributions.", "anchors": ["src/sweep/grid/cartesian.rs"]}
{"id": "C28", "title": "The upwind order on cartesian grids is acyclic", "statement": "On a non-periodic regular grid the upwind relation of each direction has no cycle, so the sweep can always be ordered.", "quantifier": "every grid size and every direction", "why_tests_cant": "For all directions and sizes.", "anchors": ["src/sweep/grid/cartesian.rs", "src/sweep/grid/cell.rs"]}
{"id": "C29", "title": "Chemistry keeps the ionized fraction and temperature in bounds", "statement": "After every chemistry update the ionized fraction lies strictly between 0 and 1 and, if cooling is disabled, temperature and fraction are not below their initial values, for every sequence of updates.", "quantifier": "every initial state, photon rate, density, timestep and sequence of updates", "why_tests_cant": "History property over all reals; includes the branch where the solver fails to converge.", "anchors": ["src/chemistry/hydrogen_only/mod.rs: clamp, perform_timestep, perform_timestep_internal, update_abundances"]}
{"id": "C30", "title": "A chemistry step integrates exactly the requested time", "statement": "When a chemistry update is adaptively split into substeps, the accepted substeps add up to exactly the requested timestep, every accepted substep changes temperature and fraction by at most the allowed relative amount, and rejected substeps leave no trace in the state.", "quantifier": "every rate function, state, timestep and tolerance", "why_tests_cant": "Recursion depth and rejection pattern are data dependent.", "anchors": ["src/chemistry/hydrogen_only/mod.rs: perform_timestep_internal, try_timestep_update, update"]}
{"id": "C31", "title": "Parameter overrides set exactly the addressed value", "statement": "Applying overrides from the command line to a parameter file makes every overridden key have the given value (the last one if given twice), creates missing intermediate sections, and leaves all other values unchanged.", "quantifier": "every nested parameter tree and every list of overrides", "why_tests_cant": "Nested trees and override lists are unbounded.", "anchors": ["src/parameter_plugin/parameter_file_contents.rs: insert_overrides, set_sublevel_value_by_keys, construct_sub_mapping"]}
{"id": "C32", "title": "Remapping assigns each particle the globally nearest source particle", "statement": "When data is remapped from another snapshot distributed over ranks, every local particle takes, for temperature and ionized fraction, the larger of its own value and that of a source particle at globally minimal distance.", "quantifier": "every distribution of source particles over ranks and every query", "why_tests_cant": "Pruning by extents over ranks, all geometries and distributions.", "anchors": ["src/arepo_postprocess/remap.rs"]}
{"id": "C33", "title": "Every radiation source is deposited exactly once", "statement": "Each source inside the simulation box adds its rate to exactly one particle on exactly one rank, so the total source rate over all ranks equals the sum of all source rates.", "quantifier": "every set of sources, every decomposition", "why_tests_cant": "Depends on ownership over all ranks.", "anchors": ["src/source_systems.rs: set_source_terms_system", "src/domain/decomposition.rs: get_owning_rank"]}
{"id": "C34", "title": "Id lookup across ranks resolves every existing id consistently", "statement": "After a distributed lookup every requested id that is stored on some rank is resolved to its owner, independent of how requests are chunked, and no id is resolved to anything else.", "quantifier": "every distribution of ids, every request list per rank, every chunk size", "why_tests_cant": "All distributions and request patterns.", "anchors": ["src/arepo_postprocess/read_grid/id_cache.rs: perform_lookup, exchange_request_chunk, lookup"]}
{"id": "C35", "title": "Connections read from a grid file give mutual neighbours", "statement": "Building cells from a connection list yields symmetric adjacency: each accepted connection appears once in each of its two cells, with opposite normals and equal areas, on whichever ranks these live.", "quantifier": "every connection list and distribution", "why_tests_cant": "Precondition of the sweep for all input files.", "anchors": ["src/arepo_postprocess/read_grid/mod.rs: add_connections"]}
{"id": "C36", "title": "2D triangulation stays topologically consistent", "statement": "After any sequence of point insertions and edge flips the 2D triangulation is consistent: neighbour references are mutual and point to existing triangles, each triangle's edges contain its points, no edge is leaked, the triangles are connected, and with n inserted points there are exactly 2n+1 triangles and 3n+3 edges, whatever the geometric predicates answer as long as no circumcircle is reported to contain one of its own corners. Each insertion reports exactly the triangles around the new point, and each of them passes the circumcircle test against its neighbour opposite to the new point.", "quantifier": "every sequence of insertions and every answer of the geometric predicates", "why_tests_cant": "Independent of geometry and rounding; tests use 100 random points.", "anchors": ["src/voronoi/delaunay/impl_2d.rs: split, flip, insert_basic_tetra", "src/voronoi/delaunay/mod.rs: insert_tetra, update_connections_in_existing_tetra, perform_flip_checks"]}
{"id": "C37", "title": "3D tetrahedralisation stays topologically consistent", "statement": "After any sequence of point insertions and 2-3 / 3-2 flips in 3D, neighbour references are mutual and valid, faces match the points of their tetrahedra, no face is leaked, the tetrahedra are connected, and the number of faces is twice the number of tetrahedra plus two. The split never panics and a flip panics only when the line test does or when the third tetrahedron around the crossed edge does not exist.", "quantifier": "every sequence of insertions and flips and every answer of the geometric predicates", "why_tests_cant": "Independent of geometry and rounding.", "anchors": ["src/voronoi/delaunay/impl_3d.rs: split, two_to_three_flip, three_to_two_flip, flip"]}
{"id": "C38", "title": "Halo search is complete when it stops", "statement": "When the distributed grid construction stops, every tetrahedron touching a local point has been searched with its full circumsphere, so every foreign particle inside the circumsphere of such a tetrahedron has been imported.", "quantifier": "every behaviour of the triangulation and every search result sequence", "why_tests_cant": "Invariant over an unbounded iteration with data-dependent work list.", "anchors": ["src/voronoi/constructor/halo_iteration.rs: run, iterate, get_radius_search_data, tetra_should_be_checked"]}
{"id": "C39", "title": "No halo particle is imported twice", "statement": "Over the whole grid construction each rank receives each (particle, periodic image) of another rank at most once, so the duplicate check in the importer never fires.", "quantifier": "every sequence of search requests from all ranks", "why_tests_cant": "History property across ranks.", "anchors": ["src/voronoi/constructor/halo_cache.rs", "src/voronoi/constructor/parallel/mod.rs", "src/voronoi/constructor/halo_iteration.rs: iterate"]}
{"id": "C40", "title": "Cyclic arrangement visits every item once around the ring", "statement": "Arranging items by a symmetric relation in which each item is related to two others yields pairs of related items in which every item occurs exactly once as first and once as second element, forming one closed ring.", "quantifier": "every finite symmetric relation with the documented precondition", "why_tests_cant": "All relations; the documented precondition must be strong enough.", "anchors": ["src/voronoi/utils.rs: arrange_cyclic_by, periodic_windows_2"]}
{"id": "C41", "title": "Circumcircle and circumcentre computations agree with geometry", "statement": "In exact arithmetic the circumcentre is equidistant from all vertices, and the in-circle (in-sphere) test is positive exactly when the point is strictly closer to the centre than the vertices are, for every positively oriented simplex.", "quantifier": "all vertices and query points in 2D and 3D", "why_tests_cant": "Algebraic identity over all reals.", "anchors": ["src/voronoi/primitives/triangle.rs: circumcircle_contains, get_center_of_circumcircle", "src/voronoi/primitives/tetrahedron.rs", "src/voronoi/math/utils.rs: determinant3x3, determinant4x4, determinant5x5"]}
{"id": "C42", "title": "The initial simplex encloses the whole domain", "statement": "The starting triangle (tetrahedron) strictly contains every point of the extent it was built for and is positively oriented.", "quantifier": "every extent with positive side lengths and every point in it", "why_tests_cant": "All extents; insertion panics otherwise.", "anchors": ["src/voronoi/primitives/triangle.rs: all_encompassing", "src/voronoi/primitives/tetrahedron.rs: all_encompassing"]}
{"id": "C43", "title": "The scale-factor search finds the requested time or reports failure", "statement": "Searching the scale factor for a time difference returns a value whose time difference is within the tolerance, whenever a solution exists in the searched interval and the function is monotone and continuous enough; otherwise it fails explicitly, never returning a wrong value.", "quantifier": "every monotone function, target and tolerance", "why_tests_cant": "Quantifies over functions.", "anchors": ["src/cosmology.rs: depth_limited_binary_search, get_scalefactor_from"]}
{"id": "C44", "title": "Snapshots are written once per output interval", "statement": "With regular output intervals the k-th snapshot is written at the first step whose time reaches k intervals; snapshot numbers are consecutive, and no interval boundary is skipped or written twice.", "quantifier": "every sequence of time steps and every interval", "why_tests_cant": "History property over step sequences of arbitrary size relative to the interval.", "anchors": ["src/io/output/timer.rs"]}
{"id": "C45", "title": "Expected and sent message counts agree between every pair of ranks", "statement": "The number of messages a rank expects from another rank in a sweep equals the number the other rank will send in that sweep, for every level, whenever neighbour relations are mutual and halo levels are up to date; halo levels are up to date after every level exchange.", "quantifier": "every grid with mutual neighbours, every level assignment, every sweep level", "why_tests_cant": "Needed for termination; all level assignments across rank boundaries.", "anchors": ["src/sweep/mod.rs: init_counts, handle_remote_neighbour, communicate_levels"]}
{"id": "C46", "title": "Stored data round-trips through its wire and file encodings", "statement": "Optional values, periodic-image tags and tree node indices survive being encoded for communication and decoded again, and the displacement table of a variable-size gather places each rank's data in its own slot without overlap.", "quantifier": "every value and every vector of counts", "why_tests_cant": "All values.", "anchors": ["src/communication/communicated_option.rs", "src/voronoi/constructor/parallel/mpi_types.rs", "src/quadtree/node_index.rs", "src/communication/mpi_world.rs: displacements"]}
{"id": "C47", "title": "Interpolation tables are never indexed out of range", "statement": "Looking up the stellar spectrum table for any age and metallicity uses indices inside the table and returns a value between the smallest and largest surrounding table entries.", "quantifier": "every age and metallicity", "why_tests_cant": "All inputs including those outside the tabulated range.", "anchors": ["src/arepo_postprocess/bpass.rs: bpass_lookup, linear_interpolate"]}
{"id": "C48", "title": "A cell never emits more than it receives", "statement": "The outgoing rate of a cell is zero below the threshold, never negative, and not larger than a non-negative incoming rate.", "quantifier": "every density, cell size, ionized fraction between 0 and 1, threshold and incoming rate", "why_tests_cant": "All inputs of the absorption formula.", "anchors": ["src/chemistry/hydrogen_only/mod.rs: get_outgoing_rate"]}
{"id": "C49", "title": "The random matrix applied to the sweep directions is a rotation", "statement": "The matrix built from any three random numbers preserves all scalar products and has determinant one, so that lengths of directions and the angles between them are unchanged.", "quantifier": "every value of the three random numbers, every set of directions", "why_tests_cant": "The tests draw 100 matrices and check one vector.", "anchors": ["src/sweep/direction/mod.rs: get_rotation_matrix, get_random_rotation_matrix, multiply_by_matrix"]}
{"id": "C50", "title": "The age of the universe and its inverse are right", "statement": "The closed formula for the time at a scale factor solves the Friedmann equation of a flat universe and is zero at scale factor zero; time differences add up and grow with the scale factor; and looking up the scale factor after a time difference gives one whose time is within 100 years of the requested one, and always succeeds when such a scale factor up to today exists.", "quantifier": "every flat cosmology with matter and a cosmological constant, every pair of scale factors, every time difference", "why_tests_cant": "The tests try 25 pairs of scale factors in one cosmology.", "anchors": ["src/cosmology.rs: time_difference_between_scalefactors, get_scalefactor_from_scalefactor_and_time_difference"]}
{"id": "C51", "title": "Linear systems are solved exactly", "statement": "The Gaussian elimination used by the containment and intersection tests returns a vector that satisfies every equation and is the only one that does; it returns a result exactly for systems with a unique solution; and the variant with pivot checks returns only solutions.", "quantifier": "every number of equations and every matrix", "why_tests_cant": "All sizes and all matrices, including those that need row exchanges and singular ones.", "anchors": ["src/voronoi/math/utils.rs: solve_system_of_equations, swap_rows, backward_substitution, solve_3x4_system_of_equations_error"]}
{"id": "C52", "title": "Containment tests agree with geometry", "statement": "The test whether a triangle (tetrahedron) contains a point answers yes exactly for points strictly inside, answers no only for points strictly outside, and panics only for points on an edge (on the plane of a face) or degenerate simplices.", "quantifier": "every nondegenerate triangle and tetrahedron of either orientation, every point", "why_tests_cant": "All simplices and points.", "anchors": ["src/voronoi/primitives/triangle.rs: generic_contains", "src/voronoi/primitives/tetrahedron.rs: points_are_on_same_side_of_triangle, arbitrary_precision_contains"]}
{"id": "C53", "title": "Distances to triangles and tetrahedra are right", "statement": "The closest point on a triangle belongs to the triangle and no other point of the triangle is nearer; the distance of a point to a tetrahedron is attained by a point of the tetrahedron and no point of the tetrahedron is nearer, for points inside and outside.", "quantifier": "every nondegenerate triangle and tetrahedron and every point", "why_tests_cant": "Seven regions of the algorithm, all shapes.", "anchors": ["src/voronoi/primitives/triangle.rs: closest_point", "src/voronoi/primitives/tetrahedron.rs: distance_to_point"]}
{"id": "C54", "title": "The intersection of a line with a triangle is classified correctly", "statement": "The intersection type used to choose between flips says exactly which weights of the intersection point are negative: inside, outside of one named edge, or outside of two; it panics exactly when the point lies on the line of an edge or the line is parallel to the triangle.", "quantifier": "every triangle in space and every line", "why_tests_cant": "All triangles and lines.", "anchors": ["src/voronoi/primitives/triangle.rs: generic_get_line_intersection_type, get_intersection_type"]}
{"id": "C55", "title": "Search for the containing tetrahedron", "statement": "After any sequence of insertions the search for the tetrahedron that contains a point, which walks over neighbours starting from the last insertion, returns a tetrahedron for which the containment test holds, reports that there is none only if the test fails for every tetrahedron, and panics only if the test panics for some tetrahedron.", "quantifier": "every sequence of insertions, every point, every order in which the queue of tetrahedra is visited", "why_tests_cant": "A test sees a few meshes; whether the walk can miss a tetrahedron depends on the connectivity of every reachable mesh and on the visiting order.", "anchors": ["src/voronoi/delaunay/point_location.rs: find_containing_tetra", "src/voronoi/delaunay/mod.rs: find_containing_tetra"]}
{"id": "C56", "title": "The two-dimensional triangulation is the Delaunay triangulation", "statement": "Whenever the construction returns, the triangles are counterclockwise, do not overlap, cover the initial triangle, and the circumcircle of every one of them contains no other inserted point, inside or on the circle, in the coordinates that the predicates work with; and every three inserted points with an empty circumcircle form a triangle of the result.", "quantifier": "every extent, every list of points, every order in which pending flip checks are processed", "why_tests_cant": "The emptiness of all circumcircles after local flips is a global geometric fact; tests check a few random point sets.", "anchors": ["src/voronoi/delaunay/mod.rs: construct, insert, split, flip_check, flip", "src/voronoi/delaunay/dimension.rs: remap_point", "src/voronoi/primitives/triangle.rs: circumcircle_contains"]}
{"id": "C57", "title": "The triangulation is right in the coordinates of the points", "statement": "The remapping of all points to the unit interval keeps the tiling: in the original coordinates the triangles also cover the initial triangle without overlap, and for a square extent (in particular for the periodic images of a square box) they are the Delaunay triangulation of the original points.", "quantifier": "every extent, every list of points", "why_tests_cant": "The remapping distorts distances unless the extent is a square, which the tests (square boxes) cannot see.", "anchors": ["src/voronoi/delaunay/dimension.rs: remap_point", "src/voronoi/delaunay/mod.rs: construct", "src/extent.rs: including_periodic_images"]}
{"id": "C58", "title": "The triangulation does not depend on the order of insertion", "statement": "Two constructions from permuted lists of points, with pending flip checks processed in any order, give the same triangles.", "quantifier": "every extent, every list and every permutation of it, every two orders of flip checks", "why_tests_cant": "Number of permutations.", "anchors": ["src/voronoi/delaunay/mod.rs: construct, insert, perform_flip_checks"]}
{"id": "C59", "title": "The two-dimensional construction does not panic", "statement": "If no three of the points (with the corners of the initial triangle) are on a line and no four on a circle and the points are in the extent, then the construction returns a triangulation: point location finds a triangle, no predicate panics, every flip finds its triangles and the flip loop ends.", "quantifier": "every extent, every list of points in general position, every order of flip checks", "why_tests_cant": "All point sets; termination of the flip loop.", "anchors": ["src/voronoi/delaunay/mod.rs: construct, insert, split, flip_check, flip", "src/voronoi/delaunay/point_location.rs: find_containing_tetra"]}
{"id": "C60", "title": "The grid does not depend on the distribution over ranks", "statement": "When the parallel construction ends, the triangles around every particle of a rank are, as point positions, exactly the triangles around the same particle in the triangulation that a single rank computes from all particles and their periodic images; hence two ranks (and two different distributions) agree about the triangles they share.", "quantifier": "every number of ranks, every distribution of the particles, every order of insertion and of flip checks, every circumcircle routine that covers the circumcircles, every search radius schedule", "why_tests_cant": "Needs the exchange of haloes, the triangulation on every rank and the global triangulation at the same time; tests compare a few point sets on two ranks.", "anchors": ["src/voronoi/constructor/mod.rs: construct_from_iter", "src/voronoi/constructor/halo_iteration.rs: run, haloes_imported, do_search_iteration", "src/voronoi/constructor/parallel/mod.rs: ParallelSearch", "src/voronoi/delaunay/mod.rs: construct, insert"]}
{"id": "C61", "title": "Voronoi cells have one face per neighbour", "statement": "The construction of the Voronoi cells of a triangulation returns a cell for every particle without a panic (the triangles around every particle can be arranged in a cycle, every two consecutive ones share a face that contains the particle). The cell has exactly one face for every neighbour in the triangulation, with the type of the neighbour, the normal in its direction and the distance of the two circumcenters as its size, and it is marked infinite exactly if a neighbour is a corner of the initial triangle.", "quantifier": "every extent, every list of points for which the triangulation is constructed, all particle types", "why_tests_cant": "The cyclic arrangement panics if the triangles around a particle do not form a single cycle; tests see a few point sets.", "anchors": ["src/voronoi/cell.rs: Cell::new, get_faces, get_common_face, tetras_are_neighbours, get_normal", "src/voronoi/triangulation_data.rs: from_triangulation_and_map, construct_voronoi, get_particle_type, is_infinite_cell", "src/voronoi/utils.rs: arrange_cyclic_by"]}
{"id": "C62", "title": "A Voronoi cell contains the places nearest to its particle", "statement": "In a square extent, contains of the cell of a particle returns true exactly for the places whose distance to the particle is at most the distance to every other point of the triangulation.", "quantifier": "every square extent, every list of points, every place", "why_tests_cant": "All places; tests check random places in a few cells.", "anchors": ["src/voronoi/cell.rs: contains, sign, point_windows", "src/voronoi/primitives/triangle.rs: get_center_of_circumcircle"]}
{"id": "C63", "title": "The volume of a cell is the sum over its faces", "statement": "In a square extent the volume of a cell is one half of the sum over its faces of the size of the face times half the distance to the neighbour. Every summand, and the volume, is positive and there are at least three faces.", "quantifier": "every square extent, every list of points", "why_tests_cant": "The formula for the area of a polygon from its corners is only right if the corners are in order around it.", "anchors": ["src/voronoi/cell.rs: volume, point_windows, get_faces"]}
{"id": "C64", "title": "Neighbouring Voronoi cells see the same face", "statement": "If two particles are neighbours in the triangulation, the cell of each has a face towards the other, the two faces have the same size and opposite normals.", "quantifier": "every extent, every list of points, all pairs of neighbours", "why_tests_cant": "All pairs of cells; the sweep needs this for every pair to terminate and to conserve photons.", "anchors": ["src/voronoi/cell.rs: get_faces, get_normal"]}
{"id": "C65", "title": "The grids of all ranks are one grid", "statement": "When the halo iteration has ended, every rank constructs its part of the sweep grid without panic. Its cells are those of its own particles in the order of insertion. Each is the cell of the particle in the Voronoi tessellation of all particles and periodic images: one face per neighbour with the right size and normal, the right volume, and every neighbour named as Local, Remote, LocalPeriodic, RemotePeriodic or Boundary exactly according to the rank and image it is. The halo particles that are spawned are exactly the remote particles to which a local face leads.", "quantifier": "all numbers of ranks, all distributions of particles over ranks, all orders of insertion, all orders of the flip checks, with and without periodic boundaries", "why_tests_cant": "A test compares a few distributions of one set of points; a wrongly named neighbour or a missing halo only appears for particular positions relative to the domain boundaries.", "anchors": ["src/voronoi/constructor/mod.rs: construct_from_iter, sweep_grid, map_ptype", "src/voronoi/constructor/parallel/plugin.rs: construct_grid_system"]}
{"id": "C66", "title": "The constructed Voronoi grid satisfies what the sweep needs", "statement": "For the grids that all ranks have constructed together: every remote neighbour is known on the other rank and names this cell in return, the faces of the two sides agree in size and have opposite directions (also across periodic boundaries), every remote cell that is needed has a halo, and the upwind relation of every direction has no cycle. Hence under every fair schedule all ranks finish all sweeps.", "quantifier": "all numbers of ranks, all particle positions and distributions, all directions, all schedules, with and without periodic boundaries", "why_tests_cant": "A hang of the sweep needs a particular combination of grid, direction and message order; tests run one of each.", "anchors": ["src/voronoi/constructor/parallel/plugin.rs", "src/sweep/mod.rs", "src/sweep/grid/cell.rs"]}
{"id": "C67", "title": "The 3x3 periodic images suffice", "statement": "The cells of local particles are bounded, and a point is in such a cell exactly when no particle and no periodic image of a particle - at any distance, not only those in the neighbouring boxes - is nearer.", "quantifier": "all particle sets in the half-open square box, all distributions over ranks, all points", "why_tests_cant": "The claim quantifies over infinitely many images; a test only compares against finitely many.", "anchors": ["src/voronoi/constructor/halo_iteration.rs", "src/voronoi/constructor/parallel/mod.rs", "src/voronoi/cell.rs: contains"]}
{"id": "C68", "title": "The three-dimensional triangulation is the Delaunay triangulation", "statement": "Whenever the construction in space returns, the tetrahedra are positively oriented, do not overlap, cover the initial tetrahedron, and the circumsphere of every one of them contains no other inserted point, inside or on the sphere, in the coordinates that the predicates work with; every four inserted points that are not on a plane and have an empty circumsphere form a tetrahedron of the result. In the coordinates of the points the tetrahedra also cover the initial tetrahedron without overlap, and for a cubic extent (in particular for the periodic images of a cubic box) they are the Delaunay triangulation of the points themselves.", "quantifier": "every extent, every list of points, every order in which pending flip checks are processed", "why_tests_cant": "Although single flips of the loop may be impossible (the code then does nothing and relies on later checks), the loop must end with no violated face: a statement about all sequences of 2-3 and 3-2 flips. Tests check consistency of a few small random sets.", "anchors": ["src/voronoi/delaunay/mod.rs: construct, insert, flip_check, perform_flip_checks", "src/voronoi/delaunay/impl_3d.rs: split, flip, two_to_three_flip, three_to_two_flip", "src/voronoi/primitives/tetrahedron.rs: circumcircle_contains, contains", "src/voronoi/primitives/triangle.rs: get_line_intersection_type", "src/dimension.rs: remap_point"]}
{"id": "C69", "title": "The three-dimensional triangulation does not depend on the order of insertion", "statement": "Two constructions in space from permuted lists of points, with pending flip checks processed in any order, give the same tetrahedra.", "quantifier": "every extent, every list and every permutation of it, every two orders of flip checks", "why_tests_cant": "All permutations and all schedules; the flips that are made on the way differ.", "anchors": ["src/voronoi/delaunay/mod.rs: construct, insert, perform_flip_checks", "src/voronoi/delaunay/impl_3d.rs: flip"]}
{"id": "C70", "title": "The three-dimensional construction does not panic", "statement": "If no four of the points (with the corners of the initial tetrahedron) are on a plane and no five on a sphere and the points are in the extent, then the construction in space returns a triangulation: point location finds a tetrahedron, no predicate panics, the line through the two opposite points of a violated face never meets an edge, a 3-2 flip always finds the tetrahedra next to the reflex edge, and the flip loop ends.", "quantifier": "every extent, every list of points in general position, every order of flip checks", "why_tests_cant": "All point sets; the unwrap of the neighbours of the shared reflex edge fails only in configurations that a random test never meets.", "anchors": ["src/voronoi/delaunay/impl_3d.rs: flip, two_to_three_flip, three_to_two_flip, split", "src/voronoi/delaunay/mod.rs: construct, insert, flip_check", "src/voronoi/primitives/triangle.rs: get_line_intersection_type", "src/voronoi/delaunay/point_location.rs: find_containing_tetra"]}
{"id": "C71", "title": "Voronoi cells in space have one face per neighbour", "statement": "The construction of the Voronoi cells of a triangulation in space returns a cell for every particle without a panic (the tetrahedra around every line between two neighbours can be arranged in a cycle). The cell has exactly one face for every neighbour in the triangulation, with the type of the neighbour and the normal in its direction; the corners of the face are the circumcenters of the tetrahedra around the line to the neighbour, in the order in which these are around the line. The cell is marked infinite exactly if a neighbour is a corner of the initial tetrahedron.", "quantifier": "every extent, every list of points for which the triangulation is constructed, all particle types, every iteration order of the hash sets", "why_tests_cant": "The cyclic arrangement panics if the tetrahedra around a line do not form a single cycle; tests see a few point sets.", "anchors": ["src/voronoi/cell.rs: Cell::new, get_faces, get_face_polygon_perpendicular_to_line, get_normal", "src/voronoi/triangulation_data.rs: from_triangulation_and_map, construct_voronoi, get_particle_type, is_infinite_cell", "src/voronoi/utils.rs: arrange_cyclic_by"]}
{"id": "C72", "title": "A Voronoi cell in space contains the places nearest to its particle", "statement": "In a cubic extent, contains of the cell of a particle returns true exactly for the places whose distance to the particle is less than the distance to every other point of the triangulation.", "quantifier": "every cubic extent, every list of points, every place", "why_tests_cant": "All places; tests check random places in a few cells.", "anchors": ["src/voronoi/cell.rs: contains", "src/voronoi/primitives/tetrahedron.rs: get_center_of_circumcircle"]}
{"id": "C73", "title": "Areas and volume of a Voronoi cell in space", "statement": "In a cubic extent every face of a cell is a convex polygon in the plane perpendicular to the line to the neighbour, and its area is the area of this polygon (in particular positive). The volume is the volume of the tetrahedra between the particle and the triangles of the faces, which is also the sum over the faces of a third of the area times half the distance to the neighbour; it is positive, and there are at least four faces.", "quantifier": "every cubic extent, every list of points", "why_tests_cant": "The area is computed as a sum of absolute values of triangles with the first corner, which is only right if the corners are in order around a convex polygon.", "anchors": ["src/voronoi/cell.rs: volume, pyramid_volume, get_faces, get_face_polygon_perpendicular_to_line", "src/voronoi/primitives/polygon3d.rs: area"]}
{"id": "C74", "title": "Neighbouring Voronoi cells in space see the same face", "statement": "If two particles are neighbours in the triangulation, the cell of each has a face towards the other; the two faces have the same area and opposite normals.", "quantifier": "every extent, every list of points, all pairs of neighbours", "why_tests_cant": "All pairs of cells; the sweep needs this for every pair to terminate and to conserve photons.", "anchors": ["src/voronoi/cell.rs: get_face_polygon_perpendicular_to_line, get_normal"]}
{"id": "C75", "title": "The grid in space does not depend on how the particles are distributed over ranks", "statement": "After the halo iteration in three dimensions has finished, the tetrahedra around every particle of every rank are exactly the tetrahedra with empty circumspheres among all particles of all ranks, all of their periodic images and the corners of the initial tetrahedron, as if one rank had triangulated everything. In particular two ranks agree on the tetrahedra between their particles, and the result is that of a single rank which inserts all images.", "quantifier": "For every number of ranks, all distributions of distinct particles in a cubic periodic box, all insertion orders, all orders of flips, all chunk sizes, tree parameters and initial search lengths, all circumsphere computations whose search sphere covers the circumsphere.", "why_tests_cant": "Compares executions on different numbers of ranks with an infinite family of images; existing tests compare only few ranks on a fixed sample.", "anchors": ["src/voronoi/constructor/mod.rs: construct_from_iter", "src/voronoi/constructor/halo_iteration.rs: run, haloes_imported, do_search_iteration", "src/voronoi/constructor/parallel/mod.rs: ParallelSearch", "src/voronoi/delaunay/mod.rs: construct, insert", "src/voronoi/delaunay/mod.rs: construct, insert, flip_check, perform_flip_checks", "src/voronoi/delaunay/impl_3d.rs: split, flip, two_to_three_flip, three_to_two_flip", "src/voronoi/primitives/tetrahedron.rs: circumcircle_contains, contains", "src/voronoi/primitives/triangle.rs: get_line_intersection_type", "src/dimension.rs: remap_point"]}
{"id": "C76", "title": "The grids of all ranks in space are one grid", "statement": "When the halo iteration in three dimensions has ended, every rank constructs its part of the sweep grid without panic. Its cells are those of its own particles in the order of insertion. Each is the Voronoi cell of the particle among all particles of all ranks, their periodic images and the corners of the initial tetrahedron: one face per neighbour, a convex polygon with the circumcenters around the line to the neighbour as corners, the normal to the neighbour, the right volume, and every neighbour named as Local, Remote, LocalPeriodic, RemotePeriodic or Boundary exactly according to the rank and image it is. The halo particles that are spawned are exactly the remote particles to which a local face leads.", "quantifier": "all numbers of ranks, all distributions of particles over ranks, all orders of insertion, all orders of the flip checks, all iteration orders of the hash sets, with and without periodic boundaries", "why_tests_cant": "A test compares a few distributions of one set of points; a wrongly named neighbour or a missing halo only appears for particular positions relative to the domain boundaries.", "anchors": ["src/voronoi/constructor/mod.rs: construct_from_iter, sweep_grid, map_ptype", "src/voronoi/constructor/parallel/plugin.rs: construct_grid_system", "src/voronoi/cell.rs: Cell::new", "src/voronoi/triangulation_data.rs: construct_voronoi"]}
{"id": "C77", "title": "The constructed Voronoi grid in space satisfies what the sweep needs", "statement": "For the three-dimensional grids that all ranks have constructed together: every remote neighbour is known on the other rank and names this cell in return, the faces of the two sides agree in area and have opposite directions (also across periodic boundaries), every remote cell that is needed has a halo, and the upwind relation of every direction has no cycle. Hence under every fair schedule all ranks finish all sweeps.", "quantifier": "all numbers of ranks, all particle positions and distributions, all directions, all schedules, with and without periodic boundaries", "why_tests_cant": "A hang of the sweep needs a particular combination of grid, direction and message order; tests run one of each.", "anchors": ["src/voronoi/constructor/parallel/plugin.rs: construct_grid_system", "src/sweep/mod.rs", "src/sweep/grid/cell.rs", "src/voronoi/cell.rs"]}
{"id": "C78", "title": "The 3x3x3 periodic images suffice", "statement": "The cells of local particles in space are bounded, and a point is in such a cell exactly when it is nearer to the particle than to every other particle and every other periodic image of a particle - at any distance, not only those in the neighbouring boxes.", "quantifier": "all particle sets in the half-open cubic box, all distributions over ranks, all points", "why_tests_cant": "The claim quantifies over infinitely many images; a test only compares against finitely many.", "anchors": ["src/voronoi/constructor/halo_iteration.rs", "src/voronoi/constructor/parallel/mod.rs", "src/voronoi/cell.rs: contains"]}
{"id": "C79", "title": "The check for deadlocks before the first sweep", "statement": "The check in sweep/deadlock_detection.rs, run by all ranks with messages in any order: a rank that passes it has faces whose dependencies both ranks agree on, in both directions of every exchange. On a consistent grid without cycles no rank panics in it, in particular not on the grids made of Voronoi cells. Every execution ends; if every rank has an active cell (or none has) all ranks pass. Refuted: that it returns on every grid (a rank without active cells skips the collective sum and all others wait for ever) and that it finds every deadlock (faces across the periodic boundary are not compared).", "quantifier": "all grids, all numbers of ranks, all timestep levels, all orders in which ranks and messages proceed", "why_tests_cant": "Needs several ranks and all interleavings; a run with one rank or with work on every rank never shows the hang.", "anchors": ["src/sweep/deadlock_detection.rs: get_dependencies, for_rank, check_deadlock", "src/sweep/mod.rs: single_sweep"]}
{"id": "C80", "title": "Datasets of Arepo are read with their units", "statement": "A dataset whose attributes describe it as x * a^i h^j * to_cgs in units length^k mass^l velocity^m is read as the physical value, with the scale factor and Hubble parameter of the cosmology, exactly if it is read as a quantity of that dimension; read as any other dimension, or comoving without a cosmology, it is an error; a conversion factor of zero means one for datasets without units and is an error for all others.", "quantifier": "all attributes, all values, all scale factors and Hubble parameters, all dimensions", "why_tests_cant": "Infinitely many combinations of exponents; existing tests read one file.", "anchors": ["src/arepo_postprocess/unit_reader.rs: ArepoUnitReader", "src/io/input/mod.rs: convert, read_dataset", "src/cosmology.rs: get_factor", "src/units/dimension.rs"]}
{"id": "C81", "title": "Snapshots keep their units, and the remap keeps comoving positions", "statement": "What the program writes it reads back with the same value as a quantity of the same dimension and as nothing else. The remap between two snapshots keeps comoving positions. Refuted: that a dataset written with a comoving dimension is read back (its scaling attributes are ignored and the dimension differs), and that the remap of a snapshot written with a cosmology works in a run without (it panics).", "quantifier": "all dimensions, all values, all pairs of scale factors", "why_tests_cant": "Round trips for all exponents; tests write and read single quantities.", "anchors": ["src/io/output/mod.rs: add_dimension_attrs", "src/io/unit_reader.rs: DefaultUnitReader", "src/io/input/mod.rs: convert", "src/arepo_postprocess/remap.rs: get_scale_factor_difference"]}
{"id": "C82", "title": "The sets of directions", "statement": "In space there are sets of exactly 1, 16, 21, 32, 64 and 84 directions and every other number stops the program. Every set has as many directions as requested, of length one up to the digits of the table, no two closer than twenty degrees, and (except for one direction) they are isotropic: for a face with any normal the mean flux of uniform radiation vanishes up to 1e-5 and the mean square is a third of the squared length up to 0.4 percent. In the plane, for every number: unit length, at least a full turn divided by the number apart, and they cancel exactly. Explicit directions are normalized to the unit vector which points the same way.", "quantifier": "all numbers of directions, all pairs, all normal vectors, all explicit directions except zero", "why_tests_cant": "No test looks at the numbers in the tables; a single mistyped digit would bias every result.", "anchors": ["src/sweep/direction/mod.rs: from_num, From<&DirectionsSpecification>", "src/sweep/direction/healpix.rs"]}
{"id": "C83", "title": "The time series of averages", "statement": "The six averages which are written after every step do not depend on how the particles are distributed over ranks or ordered. They are the means over all cells, weighted by mass or volume, that their names say, and lie between the bounds of the values. Refuted: that the averages of the photoionization rate are such means whatever fields are written (without that field in the output they are always zero), and that num_particles_at_timestep_levels is the number of particles at each level (it is the number at this or any higher level).", "quantifier": "all numbers of ranks, all distributions and orders of particles, all positive masses and volumes, all values", "why_tests_cant": "Independence of the distribution is about all partitions; no test of the program computes a time series on several ranks.", "anchors": ["src/sweep/time_series.rs: compute_time_series_system, compute_global_sum, num_particles_at_timestep_levels_system", "src/communication/mpi_world.rs: all_gather_sum", "src/sweep/mod.rs: count_cells_global, init_optional_component, init_optional_chemistry_component"]}
{"id": "C84", "title": "The measurements of run time", "statement": "Any list of stages shorter than the list of timer stages becomes a schedule in which no stage occurs twice and every stage is between two timer stages; both schedules of the program can be built and every stage comes after those whose results it uses. In every run, for every order of systems within stages and all measurements of the systems themselves, the stage timers never panic and leave other measurements alone; every start-up stage is measured once and every other stage once per step. No measured time is negative, the written averages are total over number of calls and the number is never zero, and the total run time is in every file. A number can be recorded exactly if it fits in 32 bits; refuted is therefore that any number of particles can be recorded (1291^3 particles stop the program).", "quantifier": "all numbers of steps, all orders of systems, all operations of the systems on their own timers, all clocks", "why_tests_cant": "The order of systems in a stage is not fixed; tests run one order and few particles.", "anchors": ["src/stages.rs: add_timers, add_stage_timers_for_stages, create_schedule", "src/performance.rs", "src/simulation_plugin/mod.rs: write_simulated_time_system", "src/io/input/mod.rs: spawn_entities_system"]}
{"id": "C85", "title": "Registration of plugins, ordered systems and unused parameters", "statement": "Adding plugins panics exactly if a plugin which must not be added twice is to be built although it was added before. Every addition that is built calls the functions for all ranks and for its kind of rank; if a plugin is built whenever it is added, what it builds once is built exactly once and first. Refuted: that this also holds for a plugin which is not built when it is first added. Systems added as well-ordered can only run in the order in which they were added. The check for unused parameters passes exactly if every section is used, except for at most one section 'visualization'.", "quantifier": "all sequences of plugins, all ranks, all orders that respect the constraints, all parameter files", "why_tests_cant": "All sequences of additions and all orders a scheduler may choose.", "anchors": ["src/simulation/mod.rs: add_plugin, already_added, add_well_ordered_system_to_stage, validate", "src/simulation/subsweep_plugin.rs"]}
{"id": "C86", "title": "The in-sphere test with rounding", "statement": "The test of f64 numbers, bit by bit with the rounding of IEEE 754: for a positively oriented tetrahedron and a point in the box to which positions are mapped, whenever the fast test gives an answer the answer is geometrically right (or the point is a corner), and it gives one whenever the sixfold volume times the difference of squared distances is at least 2^-39. The whole test with its second branch is right, and does not panic, from 2^-42 on. Refuted: that it is right for all points (the squared norms are rounded before they are lifted to exact numbers).", "quantifier": "all tetrahedra and points with f64 coordinates between 1 and 2", "why_tests_cant": "Wrong answers need points within 1e-13 of a sphere; random tests never come near, and a test cannot bound the error over all inputs.", "anchors": ["src/voronoi/primitives/tetrahedron.rs: circumcircle_contains, circumcircle_contains_float", "src/voronoi/math/precision_types.rs: PrecisionError", "src/voronoi/math/utils.rs: Sign"]}
{"id": "C87", "title": "The containment test of a tetrahedron is exact in spite of rounding", "statement": "The test with f64 numbers and its fall back to exact numbers gives for all points in the box exactly the answer of exact arithmetic: inside, outside, or a panic for points on the plane of a face.", "quantifier": "all tetrahedra and points with f64 coordinates between 1 and 2", "why_tests_cant": "The claim is about all inputs close to a face, where rounding errors decide.", "anchors": ["src/voronoi/primitives/tetrahedron.rs: points_are_on_same_side_of_triangle, f64_contains, contains", "src/voronoi/math/precision_types.rs", "src/voronoi/math/utils.rs: Sign"]}
{"id": "C88", "title": "Mapping positions to the box of the triangulation with rounding", "statement": "With rounding, positions inside of the initial tetrahedron are mapped to numbers between 1 and 2, the ends exactly to 1 and 2, with an error of at most six units of 2^-53, keeping their order, and strictly if they are further apart than 2^-49 of the extent. The mapped points meet the conditions of the geometric tests. Refuted: that different positions stay different.", "quantifier": "all f64 positions and extents without overflow or underflow", "why_tests_cant": "Over all f64 values; a result of 2 plus one unit would only show for special extents.", "anchors": ["src/dimension.rs: remap_point"]}
{"id": "C89", "title": "Periodic wrap and nearest image with rounding", "statement": "With rounding, the wrap of a position is the f64 number closest to the exact wrapped position, between 0 and the length of the box, and the exact one for positions that are not negative. The nearest image of a difference of up to one and a half box lengths is found exactly. Refuted: that the result of the wrap is smaller than the length of the box.", "quantifier": "all f64 positions and lengths without overflow or underflow", "why_tests_cant": "The failing positions are tiny negative numbers; exactness is a claim over all values.", "anchors": ["src/simulation_box.rs: periodic_wrap_component, minimize_component"]}
{"id": "C90", "title": "Integer positions and keys with rounding", "statement": "With rounding, every position in an extent that is not tiny compared with its distance from the origin gets a position on the grid of the space-filling curve, positions keep their order, and strictly if they are further apart than two cells of the grid. Hence keys are in range and particles which are not very close have different keys. Refuted: that positions are on the grid for every extent.", "quantifier": "all f64 positions and extents, every number of bits up to 50", "why_tests_cant": "The boundary of the extent together with rounding; over all f64 values.", "anchors": ["src/peano_hilbert.rs: from_point_and_min_max, get_integer_position_2d, get_integer_position_3d"]}
{"id": "C91", "title": "The choice of the flip with rounding", "statement": "The intersection of a line with a triangle, by Gaussian elimination of f64 numbers with pivots and a fall back to exact numbers: if all three weights of the point where the line meets the plane, times the square of the sixfold volume between triangle and line, are at least 2^-38 in size, the program does not stop and names exactly the negative weights. Refuted: that the answer is right for every line that does not meet an edge, in both directions (inside taken for outside and outside for inside), for volumes that are not small.", "quantifier": "all triangles and lines with f64 coordinates between 1 and 2", "why_tests_cant": "The wrong answers need a line within 1e-14 of an edge; the bound is over all inputs and all choices of pivots.", "anchors": ["src/voronoi/primitives/triangle.rs: generic_get_line_intersection_type, get_intersection_type, get_line_intersection_type", "src/voronoi/math/utils.rs: solve_system_of_equations, backward_substitution, swap_rows"]}
{"id": "C92", "title": "The containment test of a triangle with rounding", "statement": "The test whether a point belongs to a triangle, by Gaussian elimination of f64 numbers with a fall back to exact numbers, gives the right answer and does not stop if all weights of the point times the square of the doubled area are at least 2^-43 in size. Refuted: that it is right for every point that is not on an edge, in both directions, for triangles that are not small.", "quantifier": "all triangles and points with f64 coordinates between 1 and 2", "why_tests_cant": "The wrong answers need points within 1e-16 of an edge; the bound is over all inputs.", "anchors": ["src/voronoi/primitives/triangle.rs: transform_point_to_canonical_coordinates, generic_contains, f64_contains, arbitrary_precision_contains, contains", "src/voronoi/math/utils.rs: solve_system_of_equations, backward_substitution, swap_rows"]}
{"id": "C93", "title": "The in-circle test with rounding", "statement": "The test whether a point is inside of the circumcircle of a positively oriented triangle gives the right answer and does not stop if the doubled area times the difference of the squared distances is at least 2^-46. Refuted: that it is right for every point that is not on the circle: the squared norms are rounded before they are lifted to exact numbers.", "quantifier": "all triangles and points with f64 coordinates between 1 and 2", "why_tests_cant": "The wrong answers need points within 1e-16 of a circle; the bound is over all inputs.", "anchors": ["src/voronoi/primitives/triangle.rs: circumcircle_contains", "src/voronoi/math/utils.rs: determinant3x3_sign, compare_result_against_entries, determinant3x3"]}
{"id": "C94", "title": "Mirrors of entities on other ranks", "statement": "In every run of sends and collective receives, a rank holds after the last receive exactly one entity for each entity of another rank that was sent to it before this receive and after the one before, with the data sent last; entities are told apart by rank, index and generation. An entity that is mentioned again keeps its mirror; mirrors of entities that are not mentioned are deleted; what is received from one rank never touches the mirrors of another. A rank panics exactly if something is sent after the first receive. Refuted: that the communicator can be used for a second round; draining the container removes the places of all ranks.", "quantifier": "all numbers of ranks, entities, data, sequences of operations, orders of hash maps and allocators of entities", "why_tests_cant": "The result depends on the order of hash maps and on the allocator, and the panic needs a second round.", "anchors": ["src/communication/sync_communicator.rs: send_sync, receive_sync, despawn_deleted, from_communicator", "src/communication/identified.rs: new, entity", "src/communication/data_by_rank.rs: drain_all"]}
{"id": "C95", "title": "State of the particles after the start-up", "statement": "For every order of the start-up systems that the scheduler may choose, a particle ends with the ionized fraction of the parameter file or, without one, with the number nearest to 0.76 times its electron abundance between 1e-10 and 1 - 1e-10; with the temperature at which an ideal gas of its density and ionization has the internal energy that was read; with the mass of its cell; with no photon rate and no source; and without internal energy and electron abundance. The conversions between temperature and energy density are inverse to each other. Refuted: that the fraction is always between these bounds; a fraction of the parameter file is not checked.", "quantifier": "all data of a particle, volumes of cells, parameters, and allowed orders of the systems", "why_tests_cant": "The order of systems within a stage is chosen at run time, and commands take effect only at the end of a stage.", "anchors": ["src/main.rs: main, insert_missing_components_system, insert_initial_ionized_fraction_system, compute_cell_mass_system, set_initial_ionized_fraction_from_electron_abundance_system", "src/units/specific_impls.rs: to_internal_energy, from_internal_energy_density_hydrogen_only, to_temperature, from_temperature_hydrogen_only", "src/simulation_plugin/mod.rs: remove_components_system"]}
{"id": "C96", "title": "Sources from the initial conditions", "statement": "If the four data sets of the stars have the same entries in the same order over all files, then all ranks together obtain exactly one source for each star with positive formation scale factor, in the order of the files, with the position of the star and the rate for its own age, metallicity and mass times the escape fraction, for any number of ranks and also if the data sets are divided over the files differently; if the age of such a star cannot be computed, a rank panics. Refuted: that a data set missing in one file is noticed; the data of different stars are then combined.", "quantifier": "all stars, files, numbers of ranks, cosmologies and escape fractions", "why_tests_cant": "Each data set is divided over the ranks on its own; the tests use neither several files nor several ranks.", "anchors": ["src/arepo_postprocess/sources.rs: read_sources_system, new_bpass_source, read_sources", "src/io/input/mod.rs: get_num_entries, read_dataset"]}
{"id": "C97", "title": "Derivatives of the rates of the chemistry", "statement": "Each function of the solver that is called a derivative (of the rates of recombination, collisional ionization, and of the cooling by recombination, ionization, excitation, bremsstrahlung and Compton scattering) is the derivative of the rate it belongs to at every positive temperature, and so is that of the whole cooling rate. The cooling rate is not negative if the gas is not colder than the background radiation.", "quantifier": "all temperatures, densities, ionized fractions and scale factors", "why_tests_cant": "The tests compare with difference quotients at seven temperatures with a tolerance of ten percent; an error in a term that is small there stays unnoticed.", "anchors": ["src/chemistry/hydrogen_only/mod.rs: collision_fit_function, collision_fit_function_derivative, case_b_recombination_rate, case_b_recombination_rate_derivative, case_b_recombination_cooling_rate, case_b_recombination_cooling_rate_derivative, collisional_ionization_rate, collisional_excitation_cooling_rate, collisional_excitation_cooling_rate_derivative, bremsstrahlung_cooling_rate, compton_cooling_rate, cooling_rate, cooling_rate_derivative"]}
{"id": "C98", "title": "Implicit steps of the chemistry", "statement": "The change of the temperature in one step is a step of the linearised backward Euler method for the heating rate at fixed ionization, with its true derivative. The change of the ionized fraction is such a step for the balance of ionization and recombination at constant energy, where the temperature follows the number of particles, and constant rate of photoionization, if the denominator is not zero. Refuted: that the derivative of the whole balance is used; the change of the rate of photoionization with the ionized fraction is left out.", "quantifier": "all states of a cell, timesteps and physical constants", "why_tests_cant": "The terms of the derivative only change how fast the method converges, so that wrong terms are not seen in results.", "anchors": ["src/chemistry/hydrogen_only/mod.rs: temperature_change, ionized_fraction_change, mu, photoionization_rate, photoheating_rate"]}
{"id": "C99", "title": "Photons are absorbed by the atoms that they ionize", "statement": "The number of atoms that a cell ionizes in a step is the number of photons by which the outgoing rate is smaller than the incoming one, if this is not below the threshold; the rate of photoionization per atom times the neutral atoms is this number, and the heating is its energy above the ionization energy. The rate per atom is not negative and at most that of optically thin gas, and not more atoms are ionized than photons come in. The reported rates do not depend on the timestep used for them and add up to the right-hand sides that the solver integrates. Refuted: the conservation below the threshold; there the photons that are not absorbed are lost.", "quantifier": "all states of a cell, timesteps and physical constants", "why_tests_cant": "The absorption in the sweep and the ionization in the chemistry are computed in different places; the tests never compare the two.", "anchors": ["src/chemistry/hydrogen_only/mod.rs: get_outgoing_rate, num_newly_ionized_hydrogen_atoms, photoheating_rate, photoionization_rate", "src/sweep/chemistry_output.rs: from_solver"]}
{"id": "C100", "title": "The halo iteration ends", "statement": "The import of halo particles into the triangulation, repeated until no rank has an undecided tetra, ends after finitely many rounds: either every rank is finished or the program has ended with one of two errors, two images of one particle in a search sphere (which needs a sphere wider than a side of the box) or a point that cannot be inserted into the triangulation.", "quantifier": "for all numbers of ranks, distributions of particles over the ranks in two and three dimensions, remappings, orders of the point location, functions computing circumspheres, positive characteristic lengths and positive chunk sizes", "why_tests_cant": "a test that runs shows that one distribution ends; that no distribution makes all ranks wait for each other or grow the search radii forever needs a measure over all states", "anchors": ["src/voronoi/constructor/halo_iteration.rs: run, iterate, get_radius_search_data, search_radius_large_enough", "src/voronoi/constructor/parallel/mod.rs: find_wrapped_point"]}
{"id": "C101", "title": "The timestep level with rounding", "statement": "With the rounding of the quotient and an error of the logarithm, the level chosen for a desired timestep is one of the levels, its step is exactly the longest step divided by two to the power of the level, exceeds the desired one at most by the relative error of the logarithm and one unit of rounding unless the level is the deepest, and is at least half of it up to the same factor unless the level is the first. A desired step of zero gives the deepest level. The step is never longer than desired unless the level is the deepest (refuted: not even with a correctly rounded logarithm); a desired step that is no number gives the longest step.", "quantifier": "for all numbers of levels up to 100, all finite steps whose quotient neither overflows nor underflows, all implementations of the logarithm with a bounded error", "why_tests_cant": "the error needs a quotient just above a power of two, which tests with round numbers do not have, and depends on the mathematical library", "anchors": ["src/sweep/timestep_level.rs: from_max_timestep_and_desired_timestep, to_timestep, as_factor"]}
{"id": "C102", "title": "Names of snapshots, files and logs", "statement": "Different snapshots, different files of a snapshot and the log files of different ranks never have the same name. The files of a snapshot and the log files have names of the same length, and sorted by name they are in the order of their index; snapshots sorted by name are in the order of their number (refuted beyond the padding: 1000 comes before 999).", "quantifier": "for all numbers of files, ranks and snapshots, all paddings and all logarithms that are not too small", "why_tests_cant": "tests write few snapshots and files; the width of the names depends on a logarithm in floating point at powers of ten", "anchors": ["src/io/output/mod.rs: get_snapshot_dir, get_output_files", "src/simulation_builder.rs: get_output_file"]}
{"id": "C103", "title": "Input files found in directories", "statement": "The input files are the given files and the hdf5 files in the given directories. If all ranks get the entries of a directory in the same order, together they read every entry of every file exactly once, whatever that order is, and the columns of one entry stay together. The program does not sort the entries: this holds for any order (refuted: if two ranks get different orders, entries are lost).", "quantifier": "for all lists of paths, directories, contents of files and numbers of ranks", "why_tests_cant": "in a test all ranks see the same file system in the same order", "anchors": ["src/io/input/mod.rs: get_file_or_all_hdf5_files_in_path_if_dir, all_input_files, split_between_ranks, read_dataset"]}
{"id": "C104", "title": "Fields of a snapshot", "statement": "Every rank writes exactly the data sets of the components chosen by the parameter, all of which have been created before; attributes are always created; an error is logged for exactly the chosen fields that do not exist. Every documented value of the parameter can be read (refuted: the value all cannot).", "quantifier": "for all sets of components and attributes, all choices of fields, on the main rank and on other ranks, with and without parallel output", "why_tests_cant": "tests use the default value; that the sets of created and of written data sets agree between ranks must hold for every choice", "anchors": ["src/io/output/parameters.rs: is_desired_field, default_fields", "src/io/output/plugin.rs: add_dataset_creation_system_if_desired, build_everywhere, build_on_main_rank, verify_output_fields_system", "src/io/output/attribute.rs: is_always_desired, create_system"]}
{"id": "C105", "title": "Time of the simulation with rounding", "statement": "After n steps the rounded time differs from the sum of the steps at most by the fraction n 2^-52 and never goes back; with equal steps the run ends at most one step before or after the one at which the exact time reaches the final time; without a final time, or with one that is not a number, the run never ends; a snapshot is due once the exact time exceeds its time by the accumulated errors and not as long as it is below by them. That the run ends with exactly the step that reaches the final time is refuted (ten steps of 0.1 do not reach 1).", "quantifier": "for all lists of time steps between 2^-900 and 2^900, all final times and numbers of steps below 2^26, all first snapshots and intervals", "why_tests_cant": "the error grows with the number of steps; tests run a few steps", "anchors": ["src/sweep/mod.rs: run_sweep_system", "src/simulation_plugin/mod.rs: stop_simulation_system", "src/io/output/timer.rs: initialize_system, run_criterion, update_system"]}
{"id": "C106", "title": "Rates of the sweep with rounding", "statement": "However the tasks of a cell and of its upwind cells follow each other, after n of them the rate that enters the cell differs from the shares of the last upwind rates at most by n 2^-50 of the largest rate there was, and is not negative once the task of the cell is solved; the shares of the downwind faces lie in [0, 1] and add up to one but for n 2^-50; a cell sends off at most what enters it and nothing below the threshold; a rate that is not a number spreads downwind for ever. That the rate is never negative before, and that its error is small compared with the rate itself, is refuted.", "quantifier": "for all weights, all sequences of up to 2^50 tasks with rates up to 2^900, all lists of up to 2^40 faces", "why_tests_cant": "rounding errors pile up over all tasks of a run, and which rates follow each other depends on the sources; tests run few sweeps with constant sources", "anchors": ["src/sweep/mod.rs: get_outgoing_rate, solve_task, handle_local_neighbour, handle_local_periodic_neighbour", "src/sweep/site.rs: new, get_rate", "src/chemistry/mod.rs: make_positive", "src/chemistry/hydrogen_only/mod.rs: get_outgoing_rate"]}
{"id": "C107", "title": "The chemistry keeps f64 numbers in their bounds", "statement": "Whatever changes the rates ask for, infinite ones and NaN included, an update of temperature and fraction does not panic, leaves a temperature that is not negative and not NaN and a fraction in [1e-10, 1 - 1e-10], not below the initial values if cooling is prevented; an accepted change is at most the allowed fraction of the value but for rounding; changes that are NaN leave the state as it is. Fractions outside of the bounds are repaired by the first update if cooling is not prevented; if it is, this is refuted (a fraction of one panics).", "quantifier": "for all functions giving the changes, all timesteps, all safety factors below one, all states of type f64", "why_tests_cant": "overflow, NaN and rounding occur in rare states; tests use a few physical ones", "anchors": ["src/chemistry/hydrogen_only/mod.rs: update_abundances, clamp, try_timestep_update, perform_timestep_internal, perform_timestep, update"]}
