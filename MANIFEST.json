{
 "claims": [
  {
   "property": "C01",
   "status": "proved",
   "theorems": [
    "C01_input_regions_partition",
    "C01_read_all_entries_once"
   ],
   "note": "for every list of file sizes and every number of ranks; regions and the data actually read"
  },
  {
   "property": "C02",
   "status": "proved",
   "theorems": [
    "C02_output_regions_partition",
    "C02_snapshot_complete",
    "C02_snapshot_round_trip"
   ],
   "note": "regions, created file sizes, complete contents and write/read round trip"
  },
  {
   "property": "C03",
   "status": "proved",
   "theorems": [
    "C03_chunks_cover_region",
    "C03_rounds_agree_and_cover"
   ],
   "note": ""
  },
  {
   "property": "C04",
   "status": "proved",
   "theorems": [
    "C04_output_serialized",
    "C04_debug_output_serialized"
   ],
   "note": "both barrier loops in the code; every number of ranks and snapshots, every interleaving; termination under fairness"
  },
  {
   "property": "C05",
   "status": "proved",
   "theorems": [
    "C05_run_advances_all_cells_equally"
   ],
   "note": "exact rational times; fewer than 32 levels as asserted by the code"
  },
  {
   "property": "C06",
   "status": "proved",
   "theorems": [
    "C06_levels_in_range_and_aligned"
   ],
   "note": "arbitrary oracle for the desired timesteps of every run"
  },
  {
   "property": "C07",
   "status": "proved",
   "theorems": [
    "C07_level_choice"
   ],
   "note": "exact log2; rounding of the floating point log2 is not modelled"
  },
  {
   "property": "C08",
   "status": "proved",
   "theorems": [
    "C08_active_list_exact",
    "C08_reference_meaning",
    "C08_rebinning_total"
   ],
   "note": "refinement over arbitrary operation sequences"
  },
  {
   "property": "C09",
   "status": "proved",
   "theorems": [
    "C09_never_panics",
    "C09_every_task_solved_once",
    "C09_upwind_cells_first",
    "C09_nothing_left_behind"
   ],
   "note": "any number of ranks, sweeps and directions, any schedule; includes the debug_assert that no cell waits for anything after a sweep"
  },
  {
   "property": "C10",
   "status": "proved",
   "theorems": [
    "C10_fair_schedules_finish",
    "C10_progress_is_possible",
    "C10_work_never_increases",
    "C10_cycle_blocks"
   ],
   "note": "termination under fairness, from any reachable state; with a cycle no schedule finishes"
  },
  {
   "property": "C11",
   "status": "proved",
   "theorems": [
    "C11_takes_messages_of_current_sweep",
    "C11_batches_belong_to_one_sweep"
   ],
   "note": ""
  },
  {
   "property": "C12",
   "status": "proved",
   "theorems": [
    "C12_results_follow_recursion",
    "C12_schedule_independent"
   ],
   "note": "exact arithmetic; chemistry an arbitrary function"
  },
  {
   "property": "C13",
   "status": "proved",
   "theorems": [
    "C13_change_is_handed_on",
    "C13_nothing_is_lost",
    "C13_incoming_is_sum_of_shares"
   ],
   "note": "the split is shown for any state of a rank; corrections to inactive cells of other ranks are dropped, see C14"
  },
  {
   "property": "C14",
   "status": "partial",
   "theorems": [
    "C14_distribution_independence_refuted",
    "C14_distribution_independence_partial"
   ],
   "note": "REFUTED in general (corrections to inactive remote cells are dropped for good); proved when no correction is dropped"
  },
  {
   "property": "C15",
   "status": "partial",
   "theorems": [
    "C15_periodic_schedule_independence_refuted"
   ],
   "note": "REFUTED: witness with three ranks in which message timing decides the outgoing rate"
  },
  {
   "property": "C16",
   "status": "partial",
   "theorems": [
    "C16_redistribution",
    "C16_identity_rotation",
    "C16_total_preserved_refuted"
   ],
   "note": "Refuted: remap overwrites in its inner loop, so only the last old direction survives. Exact characterisation of the result proved for all inputs."
  },
  {
   "property": "C17",
   "status": "partial",
   "theorems": [
    "C17_every_key_is_owned",
    "C17_decomposition_succeeds",
    "C17_owner_of_sorted_cuts",
    "C17_largest_key_refuted",
    "C17_success_refuted",
    "C17_particles_are_owned_2d",
    "C17_particles_are_owned_3d"
   ],
   "note": "proved: every particle of the box (2D and 3D) is owned by exactly one rank whenever the decomposition is computed, because keys stay below the largest value; REFUTED for raw keys equal to the largest value and for success with an empty rank or repeated odd keys"
  },
  {
   "property": "C18",
   "status": "partial",
   "theorems": [
    "C18_search_terminates",
    "C18_cut_near_jump_partial",
    "C18_hits_target_refuted"
   ],
   "note": "termination proved; the returned cut is within (range / 2^MAX_DEPTH + 4) keys of the jump; REFUTED as stated (depth limit too small, middle of odd keys rounds down)"
  },
  {
   "property": "C19",
   "status": "proved",
   "theorems": [
    "C19_particles_conserved",
    "C19_data_fits_protocol"
   ],
   "note": "collectives replaced by the result proved in C20, whose preconditions are shown to hold; entity allocation returns unused entities"
  },
  {
   "property": "C20",
   "status": "proved",
   "theorems": [
    "C20_exchange_delivers_exactly",
    "C20_terminates_without_buffering",
    "C20_missing_entries_can_block"
   ],
   "note": "for data naming other ranks only; termination when sends complete, and without buffering when every rank names all others"
  },
  {
   "property": "C21",
   "status": "proved",
   "theorems": [
    "C21_behaves_like_a_map",
    "C21_size"
   ],
   "note": "refinement of a map specification over arbitrary operation sequences"
  },
  {
   "property": "C22",
   "status": "proved",
   "theorems": [
    "C22_bijection",
    "C22_consecutive_keys_adjacent",
    "C22_intervals_connected"
   ],
   "note": "every depth; the loop and rot as written, on integers; truncation of the floating point scaling modelled exactly on rationals"
  },
  {
   "property": "C23",
   "status": "proved",
   "theorems": [
    "C23_bijection",
    "C23_consecutive_keys_adjacent",
    "C23_intervals_connected"
   ],
   "note": "every depth of at least one bit; table facts for all 48 rotations by computation, lifted by induction"
  },
  {
   "property": "C24",
   "status": "partial",
   "theorems": [
    "C24_tree_content_3d",
    "C24_tree_content_2d",
    "C24_leaf_limit_refuted"
   ],
   "note": "Both dimensions: build succeeds within the maximum depth, contents, counts, extents, depth and iteration are right for any particles in the extent (coincident ones included). The leaf bound holds with max_num_particles_per_leaf + 1; the configured number itself is refuted by a witness."
  },
  {
   "property": "C25",
   "status": "proved",
   "theorems": [
    "C25_search_exact_3d",
    "C25_search_exact_2d"
   ],
   "note": "Both dimensions, any query point and radius: hits are exactly the particles with an image shifted by at most one box length per axis closer than the radius, each once; equal to all images when the query is at most half a box outside of the box. The code shifts at most once, so queries further outside see only those images."
  },
  {
   "property": "C26",
   "status": "proved",
   "theorems": [
    "C26_wrap_3d",
    "C26_wrap_2d",
    "C26_distance_3d",
    "C26_distance_2d",
    "C26_images_3d",
    "C26_images_2d"
   ],
   "note": "Both dimensions, over exact rationals: wrapping, distance and images."
  },
  {
   "property": "C27",
   "status": "proved",
   "theorems": [
    "C27_every_rank_constructs",
    "C27_faces_mutual",
    "C27_one_face_per_side",
    "C27_local_ids_without_gaps",
    "C27_cells_are_the_grid_points",
    "C27_halos_exact",
    "C27_slab_ranks_exist"
   ],
   "note": "Any dimension (2 and 3 are instances), any assignment of cells to ranks, any hash map order, periodic or not: construction succeeds, faces mutual with opposite normals and geometry, one face per side, ids gapless, cells are the grid points, halos exact copies. Exact rationals; i32/u32 limits left out."
  },
  {
   "property": "C28",
   "status": "proved",
   "theorems": [
    "C28_no_cycle",
    "C28_sweep_assumptions_met",
    "C28_sweeps_finish"
   ],
   "note": "No upwind cycle for any direction, periodic or not; moreover the sweep model instantiated with the constructed grid meets the assumptions of C09-C15, and all sweeps finish under fair schedules."
  },
  {
   "property": "C29",
   "status": "partial",
   "theorems": [
    "C29_bounds",
    "C29_temperature_positive",
    "C29_zero_fraction_refuted",
    "C29_full_fraction_refuted"
   ],
   "note": "Any sequence of updates with arbitrary (also infinite or NaN) rates: no panic, fraction strictly in (0,1), temperature and fraction non-decreasing with cooling disabled, temperature stays positive. With cooling disabled an initial fraction of 0 stays 0 and an initial fraction of 1 panics (refuted statements). Exact rationals with infinities and NaN."
  },
  {
   "property": "C30",
   "status": "partial",
   "theorems": [
    "C30_substeps",
    "C30_requested_time_refuted",
    "C30_whole_step"
   ],
   "note": "The state after an update is reached by accepted substeps only, whose lengths are halvings of the timestep and add up to it, or the update reports failure (a tenth of the timestep). That failure path leaves less integrated than requested and is not reported to the caller: refuted with a witness. The whole step is integrated whenever at most 100 halvings make substeps acceptable."
  },
  {
   "property": "C31",
   "status": "partial",
   "theorems": [
    "C31_overrides",
    "C31_value_unique",
    "C31_failure",
    "C31_extraction",
    "C31_only_this_section",
    "C31_command_line",
    "C31_command_line_error",
    "C31_whole_section",
    "C31_last_override_refuted",
    "C31_empty_section_refuted"
   ],
   "note": "Override extraction and application modelled over parsed YAML values; the parser itself is an oracle. Refuted parts: an override of a whole section ends the list of overrides, and an override inside an empty (null) section panics."
  },
  {
   "property": "C32",
   "status": "partial",
   "theorems": [
    "C32_nearest",
    "C32_rank_without_data_refuted"
   ],
   "note": "Nearest search of the k-d tree is an oracle that returns an index of a closest point. Refuted part: a rank that gets no record of the other snapshot panics."
  },
  {
   "property": "C33",
   "status": "partial",
   "theorems": [
    "C33_deposited_once",
    "C33_total",
    "C33_source_in_box_refuted",
    "C33_empty_rank_refuted"
   ],
   "note": "Proved when every owner rank holds at least one particle and every source has an owner among the ranks. Refuted parts: a source inside the box can have a key above the largest particle key, and the decomposition can leave an owning rank without particles."
  },
  {
   "property": "C34",
   "status": "partial",
   "theorems": [
    "C34_lookup",
    "C34_duplicate_id_refuted"
   ],
   "note": "Exchange of messages as in C20. Refuted part: ids stored on two ranks."
  },
  {
   "property": "C35",
   "status": "partial",
   "theorems": [
    "C35_types",
    "C35_cells",
    "C35_periodic_end_refuted",
    "C35_allow_periodic_refuted"
   ],
   "note": "Full contents of all cells and haloes proved for known ids. Refuted parts: a connection with a periodic end appears in one cell only; allowing periodic boundaries panics."
  },
  {
   "property": "C36",
   "status": "proved",
   "theorems": [
    "C36_consistent",
    "C36_counts",
    "C36_reported",
    "C36_total",
    "C36_terminates",
    "C36_geometry"
   ],
   "note": "Model: Delaunay_Model.v (arenas of triangles and edges, split2, flip2, insertion loop, point location). Proved for arbitrary predicates that never put a corner strictly inside its own circumcircle and for any visiting order; the instance with the modelled predicates of the code is C36_geometry. C36_total assumes predicates that do not panic; fuel of the flip loop is shown irrelevant (C36_terminates)."
  },
  {
   "property": "C37",
   "status": "proved",
   "theorems": [
    "C37_consistent",
    "C37_counts",
    "C37_reported",
    "C37_terminates",
    "C37_split_total",
    "C37_flip_panics",
    "C37_geometry"
   ],
   "note": "Same model in 3D with 2-3 and 3-2 flips. Consistency, orientation, connectivity, counts, reported tetrahedra and termination proved for every predicate as in C36. Flips may be refused, so no circumsphere statement is made. C37_flip_panics gives the exact panic conditions of a flip."
  },
  {
   "property": "C38",
   "status": "proved",
   "theorems": [
    "C38_complete_2d",
    "C38_complete_3d",
    "C38_sound_2d",
    "C38_sound_3d"
   ],
   "note": "All ranks in lockstep, one round at a time, with the triangulation, the particle tree, the periodic box and the rank extents of the code. Centre and radius of a circumsphere are any function of the corner positions (the radius is a square root), so the theorem says that the sphere that function reports, enlarged by the safety factor, has been searched. Images are those shifted by at most one box length. The statement is about runs that stop; stopping is not claimed. Every rank must have a particle (otherwise communicate_extents misindexes)."
  },
  {
   "property": "C39",
   "status": "proved",
   "theorems": [
    "C39_received_once_2d",
    "C39_received_once_3d",
    "C39_panics_2d",
    "C39_panics_3d"
   ],
   "note": "Same model as C38. The cache of every rank and the haloes of every other rank are shown to agree before every round. The remaining panics are named in C39_panics: two images of one particle in one search sphere, a failed insertion, and the fuel of the model's tree search."
  },
  {
   "property": "C40",
   "status": "partial",
   "theorems": [
    "C40_windows",
    "C40_ring",
    "C40_each_once",
    "C40_small",
    "C40_documented_precondition_refuted",
    "C40_chord_refuted"
   ],
   "note": "Proved for symmetric relations in which every item has exactly two related ones and all items hang together. The precondition documented in the code (two related items each) is not sufficient: two separate triangles and a ring with a chord both panic (refuted)."
  },
  {
   "property": "C41",
   "status": "proved",
   "theorems": [
    "C41_circle",
    "C41_center2",
    "C41_sphere",
    "C41_branches_agree",
    "C41_center3"
   ],
   "note": "2D and 3D, exact arithmetic. Both 3D branches (error-bounded and arbitrary precision) are modelled, the former without rounding; the rounding of coordinate differences in f64 before the 2D determinant is not modelled."
  },
  {
   "property": "C42",
   "status": "proved",
   "theorems": [
    "C42_triangle",
    "C42_tetrahedron"
   ],
   "note": "Exact arithmetic, box with positive side lengths."
  },
  {
   "property": "C43",
   "status": "proved",
   "theorems": [
    "C43_sound",
    "C43_complete",
    "C43_fails"
   ],
   "note": "Search over exact rationals with 101 guesses. Soundness for every function; completeness for nondecreasing functions whose solutions are not confined to less than 2^-101 of the interval."
  },
  {
   "property": "C44",
   "status": "partial",
   "theorems": [
    "C44_numbers",
    "C44_regular",
    "C44_none_skipped",
    "C44_last",
    "C44_long_step_refuted",
    "C44_last_refuted"
   ],
   "note": "Numbers consecutive for all runs; regular output when no step is longer than the interval, apart from the last snapshot. Refuted in general: a longer step makes the timer lag, and the last snapshot of a run is neither due nor at the final time (the stop event is sent before one more sweep)."
  },
  {
   "property": "C45",
   "status": "proved",
   "theorems": [
    "C45_counts_agree",
    "C45_levels_are_known_after_exchange"
   ],
   "note": "counts, and levels after communicate_levels"
  },
  {
   "property": "C46",
   "status": "proved",
   "theorems": [
    "C46_option_round_trip",
    "C46_wrap_round_trip",
    "C46_node_index_round_trip",
    "C46_displacements",
    "C46_gather_is_concatenation"
   ],
   "note": "uninitialized memory arbitrary; gather order arbitrary"
  },
  {
   "property": "C47",
   "status": "proved",
   "theorems": [
    "C47_lookup",
    "C47_positive",
    "C47_any_table"
   ],
   "note": "Tables transcribed by script as the decimal numbers in the source; f64 rounding not modelled."
  },
  {
   "property": "C48",
   "status": "proved",
   "theorems": [
    "C48_no_amplification"
   ],
   "note": "The exponential is any function with values in [0,1] on non-positive numbers."
  },
  {
   "property": "C49",
   "status": "proved",
   "theorems": [
    "C49_random_matrix_is_rotation",
    "C49_directions_keep_angles",
    "C49_axis_fixed"
   ],
   "note": "Over the real numbers; uses the axioms of the standard library's real numbers (sig_not_dec, sig_forall_dec, functional_extensionality_dep, classic)."
  },
  {
   "property": "C50",
   "status": "proved",
   "theorems": [
    "C50_friedmann",
    "C50_additive",
    "C50_increasing",
    "C50_scalefactor_sound",
    "C50_scalefactor_complete",
    "C50_outside"
   ],
   "note": "Over the real numbers of the standard library (its axioms are used). powf(1.5) is read as a*sqrt a. Completeness needs sqrt(omega_0)*h >= 1e-6."
  },
  {
   "property": "C51",
   "status": "proved",
   "theorems": [
    "C51_sound",
    "C51_unique",
    "C51_complete",
    "C51_checked"
   ],
   "note": "Exact arithmetic (BigRational); division by zero is the panic of the rational type. The pivot-checked variant is modelled without rounding."
  },
  {
   "property": "C52",
   "status": "proved",
   "theorems": [
    "C52_triangle",
    "C52_degenerate",
    "C52_tetrahedron"
   ],
   "note": "Arbitrary precision branch; the f64 branch falls back to it when a value is too close to zero."
  },
  {
   "property": "C53",
   "status": "proved",
   "theorems": [
    "C53_triangle",
    "C53_tetrahedron"
   ],
   "note": "Squared distances, exact arithmetic. The 2D distance_to_point (a heuristic based on signed line distances) is not modelled."
  },
  {
   "property": "C54",
   "status": "proved",
   "theorems": [
    "C54_line",
    "C54_parallel"
   ],
   "note": "Arbitrary precision branch."
  },
  {
   "property": "C55",
   "status": "proved",
   "theorems": [
    "C55_locate2",
    "C55_locate3"
   ],
   "note": "Proved for both dimensions on top of connectivity of every reachable triangulation; the set order of the queue is an arbitrary function."
  },
  {
   "property": "C56",
   "status": "proved",
   "theorems": [
    "C56_delaunay",
    "C56_points",
    "C56_all_triangles",
    "C56_any_table"
   ],
   "note": "Two dimensions. Emptiness holds for every run that returns, in the remapped coordinates; the converse (every empty triple is a triangle) as well. C56_any_table states it for any table of positions with the initial triangle counterclockwise."
  },
  {
   "property": "C57",
   "status": "partial",
   "theorems": [
    "C57_tiles",
    "C57_square",
    "C57_periodic",
    "C57_images",
    "C57_delaunay_refuted"
   ],
   "note": "The tiling holds for all extents and the Delaunay property for square ones; for other extents remap_point scales the axes differently and C57_delaunay_refuted gives a triangle of inner points whose circumcircle contains another inner point."
  },
  {
   "property": "C58",
   "status": "proved",
   "theorems": [
    "C58_order"
   ],
   "note": "The triangles are compared as triples of positions; the statement is symmetric in the two runs, so it gives both directions."
  },
  {
   "property": "C59",
   "status": "proved",
   "theorems": [
    "C59_total",
    "C59_total_square",
    "C59_inside",
    "C59_grid_panics"
   ],
   "note": "General position is needed: C59_grid_panics shows the panic for four points of a square grid."
  },
  {
   "property": "C60",
   "status": "proved",
   "theorems": [
    "C60_same_triangles",
    "C60_any_coordinates",
    "C60_ranks_agree",
    "C60_exact_circles"
   ],
   "note": "Two-dimensional construction. The halo iteration, the search on all ranks and the insertion are the modelled functions of C36, C38, C39, C56; the hypothesis on the circumcircle routine (covers the exact circumcircle) is discharged for exact circles in C60_exact_circles. The single-rank triangulation is of all particles and their 9 images inside the box of images."
  },
  {
   "property": "C61",
   "status": "proved",
   "theorems": [
    "C61_cells"
   ],
   "note": "Voronoi_Model follows cell.rs and triangulation_data.rs for the plane (exact rationals, the normal not normalised, the size of a face as its square). For every triangulation that construct2 returns."
  },
  {
   "property": "C62",
   "status": "partial",
   "theorems": [
    "C62_contains",
    "C62_contains_refuted"
   ],
   "note": "C62_contains for square extents (the extent of the code in production: the periodic images of a cubic box). C62_contains_refuted: in an extent that is not a square the triangulation is not Delaunay (C57) and a cell contains places that are closer to another point."
  },
  {
   "property": "C63",
   "status": "proved",
   "theorems": [
    "C63_volume"
   ],
   "note": "For square extents. Sizes and distances are kept as squares, so the summands are the positive roots of the products of the squares."
  },
  {
   "property": "C64",
   "status": "proved",
   "theorems": [
    "C64_mutual"
   ],
   "note": "For every triangulation that construct2 returns, on one rank."
  },
  {
   "property": "C65",
   "status": "proved",
   "theorems": [
    "C65_whole_cells"
   ],
   "note": "Model of construct_grid_system in the plane on top of the halo iteration (C60) and the cells (C61-C64). Assumes exact arithmetic, a square box, search circles that cover the circumcircles and distinct positions; that the triangulation of all images exists is a hypothesis."
  },
  {
   "property": "C66",
   "status": "proved",
   "theorems": [
    "C66_sweep_assumptions_met",
    "C66_two_sides",
    "C66_sweeps_finish",
    "C66_distinct"
   ],
   "note": "The square root in areas and normals is any function that is positive on positive numbers. With periodic boundaries the particles have to be in the half-open box. C66_two_sides: all areas are positive, and the two cells at a face have the same area and opposite products with the directions. Combined with C11/C15 this gives termination under every fair schedule."
  },
  {
   "property": "C67",
   "status": "proved",
   "theorems": [
    "C67_infinite_lattice"
   ],
   "note": "Square box, half-open; exact arithmetic."
  },
  {
   "property": "C68",
   "status": "proved",
   "theorems": [
    "C68_delaunay",
    "C68_points",
    "C68_all_tetras",
    "C68_any_table",
    "C68_tiles",
    "C68_cube",
    "C68_periodic",
    "C68_images"
   ],
   "note": "Exact arithmetic. The tables contain the corners of the initial tetrahedron and the points in the order of insertion. C68_any_table is the statement for an arbitrary table of points; C68_cube is in the coordinates of the points."
  },
  {
   "property": "C69",
   "status": "proved",
   "theorems": [
    "C69_order"
   ],
   "note": "Equality of tetrahedra as sets of positions of their corners."
  },
  {
   "property": "C70",
   "status": "proved",
   "theorems": [
    "C70_total",
    "C70_total_cube",
    "C70_inside",
    "C70_grid_panics"
   ],
   "note": "General position includes the corners of the initial tetrahedron. C70_grid_panics shows that without it the exact predicates do panic."
  },
  {
   "property": "C71",
   "status": "proved",
   "theorems": [
    "C71_cells"
   ],
   "note": "Voronoi3_Model follows cell.rs and triangulation_data.rs for space (exact rationals, normals not normalised, areas and volumes in the reals because of the square roots). The iteration order of the hash set of the connected points is an arbitrary function that lists every item once. For every triangulation that construct3 returns."
  },
  {
   "property": "C72",
   "status": "proved",
   "theorems": [
    "C72_contains"
   ],
   "note": "For cubic extents. The code tests with strict inequalities in space (with non-strict ones in the plane, C62), so places on the border are in no cell."
  },
  {
   "property": "C73",
   "status": "proved",
   "theorems": [
    "C73_volume"
   ],
   "note": "For cubic extents. pf_convex: the area formula holds for every reference point in the sense of the shoelace formula. Square roots make the statements real-valued: classical reals axioms of the standard library."
  },
  {
   "property": "C74",
   "status": "proved",
   "theorems": [
    "C74_mutual"
   ],
   "note": "For every triangulation that construct3 returns, on one rank, also if the extent is not a cube."
  },
  {
   "property": "C75",
   "status": "proved",
   "theorems": [
    "C75_empty_spheres",
    "C75_any_coordinates",
    "C75_ranks_agree",
    "C75_single_rank",
    "C75_exact_spheres"
   ],
   "note": "Proved for the halo iteration in space with the geometric triangulation: C75_empty_spheres in a cubic box with the initial tetrahedron and the rescaled coordinates of the code, C75_any_coordinates for any initial tetrahedron and coordinates, C75_ranks_agree and C75_single_rank as consequences. covers_spheres3 asks that the search sphere (radius times safety factor) contains the circumsphere of every tetrahedron that is not flat; C75_exact_spheres shows that the exact center with a rounded radius meets it. The example in Coq is a run of two ranks with a small initial tetrahedron; a run of sixteen particles in a periodic box with the initial tetrahedron of the code was only executed with the extracted model, since it takes minutes. Degenerate inputs panic and are excluded because the run must end with Done."
  },
  {
   "property": "C76",
   "status": "proved",
   "theorems": [
    "C76_cube",
    "C76_whole_cells"
   ],
   "note": "Model of construct_grid_system in space on top of the halo iteration (C75) and the cells (C71-C74), for any initial tetrahedron and any coordinates that keep angles; C76_cube: those of the code in a cubic box. No hypothesis that a triangulation of all images exists: the whole is described by empty circumspheres. Assumes exact arithmetic, search spheres that cover the circumspheres and that the halo iteration ended without a panic; the iteration order of hash sets is arbitrary."
  },
  {
   "property": "C77",
   "status": "proved",
   "theorems": [
    "C77_sweep_assumptions_met",
    "C77_two_sides",
    "C77_sweeps_finish",
    "C77_distinct"
   ],
   "note": "Areas are real numbers; the sweep sees them through any function that is positive on positive numbers (rounding). With periodic boundaries the particles have to be in the half-open box and the corners of the initial tetrahedron far from it (C76_cube: true in the code). C77_two_sides: all areas are positive, and the two cells at a face have the same area and opposite products with the directions. The example in Coq is a run of two ranks without periodic boundaries. A run with periodic boundaries and 16 particles was computed outside the build (it takes ten minutes)."
  },
  {
   "property": "C78",
   "status": "proved",
   "theorems": [
    "C78_infinite_lattice"
   ],
   "note": "Half-open box, any initial tetrahedron that is far from it (C76_cube: that of the code in a cubic box); exact arithmetic. A run with 16 particles that meets the assumptions was computed outside the build, as it takes ten minutes."
  },
  {
   "property": "C79",
   "status": "partial",
   "theorems": [
    "C79_passed_ranks_agree",
    "C79_no_false_alarm",
    "C79_no_false_alarm_voronoi",
    "C79_ends",
    "C79_all_pass",
    "C79_idle_rank_hangs",
    "C79_returns_on_every_grid_refuted",
    "C79_finds_every_deadlock_refuted"
   ],
   "note": "The check is modelled per rank with the sum and the exchange as collective steps in any order. Proved: ranks that pass agree (also with ranks they do not depend on), no false alarm on consistent acyclic grids and on the Voronoi grids of C77, every execution ends after at most three steps per rank, all pass if every rank (or no rank) has active cells. Refuted: that it always returns (an idle rank skips the collective) and that it finds all deadlocks (periodic remote faces are left out)."
  },
  {
   "property": "C80",
   "status": "proved",
   "theorems": [
    "C80_physical_value",
    "C80_wrong_dimension",
    "C80_no_cosmology",
    "C80_zero_factor"
   ],
   "note": "The attributes of a dataset are a finite map; floats are rationals. The theorems quantify over all attribute sets that describe a dimension, all values and all cosmologies."
  },
  {
   "property": "C81",
   "status": "partial",
   "theorems": [
    "C81_round_trip",
    "C81_remap_comoving",
    "C81_comoving_read_back_refuted",
    "C81_remap_without_cosmology_refuted"
   ],
   "note": "Round trip of add_dimension_attrs and the default unit reader for all dimensions and values. Two refutations: comoving dimensions are not read back, and remapping without a cosmology panics."
  },
  {
   "property": "C82",
   "status": "proved",
   "theorems": [
    "C82_numbers",
    "C82_unit_and_distinct",
    "C82_isotropic",
    "C82_plane_unit",
    "C82_plane_distinct",
    "C82_plane_balanced",
    "C82_explicit"
   ],
   "note": "The tables of healpix.rs are transcribed digit by digit as rationals; finite checks over the tables are lifted to all normal vectors by linearity. The directions in the plane and the normalization are over the real numbers (standard library axioms of the reals)."
  },
  {
   "property": "C83",
   "status": "partial",
   "theorems": [
    "C83_distribution",
    "C83_means",
    "C83_other_means",
    "C83_between",
    "C83_rates_refuted",
    "C83_levels",
    "C83_number_at_level_refuted"
   ],
   "note": "Queries are modelled as partial maps from particles to components, MPI sums as sums over all ranks. Two refutations: rate averages are zero when the field is not written; the level counts are cumulative."
  },
  {
   "property": "C84",
   "status": "partial",
   "theorems": [
    "C84_schedules",
    "C84_labels",
    "C84_order",
    "C84_stages",
    "C84_times",
    "C84_statistics",
    "C84_total",
    "C84_numbers",
    "C84_number_of_particles_refuted"
   ],
   "note": "Names of stage labels are distinct from each other and from the program's own names. The theorem covers every order of systems in a stage. Refuted: recording more than 2^31-1 particles."
  },
  {
   "property": "C85",
   "status": "partial",
   "theorems": [
    "C85_panics",
    "C85_every_call",
    "C85_once",
    "C85_once_refuted",
    "C85_well_ordered",
    "C85_sections"
   ],
   "note": "Hooks of plugins are a log; the result of should_build is an arbitrary value per call. The refutation is a plugin whose first addition is not built."
  },
  {
   "property": "C86",
   "status": "partial",
   "theorems": [
    "C86_filter",
    "C86_whole_test",
    "C86_exact_refuted"
   ],
   "note": "bit-exact IEEE 754 doubles; the fast test is right whenever it answers, the whole test is right outside of an explicit margin; refuted: exactness of the fall back"
  },
  {
   "property": "C87",
   "status": "proved",
   "theorems": [
    "C87_same_as_exact",
    "C87_geometry"
   ],
   "note": "bit-exact IEEE 754 doubles; all points of the box"
  },
  {
   "property": "C88",
   "status": "partial",
   "theorems": [
    "C88_range",
    "C88_order",
    "C88_box",
    "C88_distinct_refuted"
   ],
   "note": "bit-exact IEEE 754 doubles; extents between 2^-900 and 2^900; refuted: injectivity"
  },
  {
   "property": "C89",
   "status": "partial",
   "theorems": [
    "C89_wrap",
    "C89_nearest_image",
    "C89_half_open_refuted"
   ],
   "note": "bit-exact IEEE 754 doubles; boxes begin at 0 (cube_from_side_length); refuted: the result is below the length"
  },
  {
   "property": "C90",
   "status": "partial",
   "theorems": [
    "C90_positions",
    "C90_keys_3d",
    "C90_keys_2d",
    "C90_on_grid_refuted"
   ],
   "note": "bit-exact IEEE 754 doubles; refuted for extents comparable to the resolution"
  },
  {
   "property": "C91",
   "status": "partial",
   "theorems": [
    "C91_choice",
    "C91_inside_refuted",
    "C91_outside_refuted"
   ],
   "note": "All lines and triangles with coordinates in [1, 2] whose weights are clear of zero by 2^-38 over the squared volume. The limit includes the error of all three steps of the elimination; it is not claimed to be the best one. C91_inside_refuted and C91_outside_refuted give wrong choices close to an edge. The theorem does not say which answers come from the fall back."
  },
  {
   "property": "C92",
   "status": "partial",
   "theorems": [
    "C92_contains",
    "C92_inside_refuted",
    "C92_outside_refuted"
   ],
   "note": "Limit 2^-43 over the squared doubled area. C92_inside_refuted and C92_outside_refuted give wrong answers close to an edge."
  },
  {
   "property": "C93",
   "status": "partial",
   "theorems": [
    "C93_circle",
    "C93_circle_refuted"
   ],
   "note": "Limit 2^-46. C93_circle_refuted gives a wrong answer close to the circle, from the fall back with rounded squared norms."
  },
  {
   "property": "C94",
   "status": "partial",
   "theorems": [
    "C94_mirrors",
    "C94_panics",
    "C94_one_rank",
    "C94_keys",
    "C94_second_send_refuted"
   ],
   "note": "Whole runs of all ranks for every order of sends and rounds; C94_panics says exactly which runs panic, and C94_second_send_refuted gives one. Because of this only the first round has a non-empty result; C94_one_rank describes one receive for any mirrors that exist already. The exchange is that of C20."
  },
  {
   "property": "C95",
   "status": "partial",
   "theorems": [
    "C95_start_up",
    "C95_energy_to_temperature_and_back",
    "C95_temperature_to_energy_and_back",
    "C95_fraction_within_bounds_refuted"
   ],
   "note": "All allowed orders of the systems of each stage, with deferred commands; exact numbers, one particle at a time; exchange and remapping between the stages are left out. Refuted: a fraction given as parameter is not checked."
  },
  {
   "property": "C96",
   "status": "partial",
   "theorems": [
    "C96_sources",
    "C96_panics",
    "C96_missing_data_noticed_refuted"
   ],
   "note": "Any stars, files and numbers of ranks; the age is any function, the rates are those of C47. Refuted: a data set missing in a file is not noticed."
  },
  {
   "property": "C97",
   "status": "proved",
   "theorems": [
    "C97_recombination",
    "C97_recombination_cooling",
    "C97_ionization",
    "C97_ionization_cooling",
    "C97_excitation_cooling",
    "C97_bremsstrahlung_cooling",
    "C97_compton_cooling",
    "C97_cooling",
    "C97_cooling_nonnegative"
   ],
   "note": "All temperatures, over the real numbers; the standard library's axioms of the real numbers are used."
  },
  {
   "property": "C98",
   "status": "partial",
   "theorems": [
    "C98_temperature",
    "C98_fraction",
    "C98_whole_balance_refuted"
   ],
   "note": "Over the real numbers, for all states and constants, if the denominator is not zero. Refuted: the rate of photoionization is treated as constant."
  },
  {
   "property": "C99",
   "status": "partial",
   "theorems": [
    "C99_photons",
    "C99_ionized_and_heated",
    "C99_bounds",
    "C99_reported_fraction",
    "C99_reported_heating",
    "C99_below_threshold_refuted"
   ],
   "note": "Over the real numbers, for all states and constants. Refuted below the threshold."
  },
  {
   "property": "C100",
   "status": "proved",
   "theorems": [
    "C100_ends_2d",
    "C100_ends_3d",
    "C100_two_images_2d",
    "C100_two_images_3d"
   ],
   "note": "The rounds that import a halo are finitely many because the images of the particles are; a round without a new halo decreases the number of undecided tetras or their distance to the radius of the circumsphere, counted in growth steps. The fuel of the tree search is bounded by the size of the largest tree. Not excluded: a point that the triangulation does not take (two points in the same place, or a point on a corner), and two images in one sphere, which needs a sphere wider than a side of the box."
  },
  {
   "property": "C101",
   "status": "partial",
   "theorems": [
    "C101_step_bounds",
    "C101_step_not_longer_refuted",
    "C101_extremes"
   ],
   "note": "Bounds proved for every logarithm with a bounded error. Refuted part: the step can be longer than desired although a deeper level exists, for every correctly rounded logarithm (C101_step_not_longer_refuted)."
  },
  {
   "property": "C102",
   "status": "partial",
   "theorems": [
    "C102_paths_distinct",
    "C102_logs_distinct",
    "C102_files_sorted",
    "C102_logs_sorted",
    "C102_snapshots_sorted",
    "C102_all_snapshots_sorted_refuted"
   ],
   "note": "Distinct names for every padding and logarithm; order for logarithms that are not too small. Refuted part: snapshots beyond the padding are not sorted by name (C102_all_snapshots_sorted_refuted)."
  },
  {
   "property": "C103",
   "status": "partial",
   "theorems": [
    "C103_files",
    "C103_same_order",
    "C103_order_irrelevant",
    "C103_rows_together",
    "C103_any_order_refuted"
   ],
   "note": "Proved if all ranks get the same order. Refuted part: the program relies on an unspecified order; different orders on two ranks lose entries (C103_any_order_refuted)."
  },
  {
   "property": "C104",
   "status": "partial",
   "theorems": [
    "C104_selection",
    "C104_created_as_written",
    "C104_reported",
    "C104_readable",
    "C104_documented_values_refuted"
   ],
   "note": "Selection, creation and reporting proved. Refuted part: the documented value all cannot be read, as the enum is untagged (C104_documented_values_refuted)."
  },
  {
   "property": "C105",
   "status": "partial",
   "theorems": [
    "C105_time_error",
    "C105_time_grows",
    "C105_number_of_steps",
    "C105_never_ends",
    "C105_exact_number_refuted",
    "C105_snapshot_due"
   ],
   "note": "Error bound, monotony, number of steps within one and due snapshots proved; the exact number of steps is refuted by ten steps of 0.1."
  },
  {
   "property": "C106",
   "status": "partial",
   "theorems": [
    "C106_incoming_error",
    "C106_own_not_negative",
    "C106_not_negative_refuted",
    "C106_relative_error_refuted",
    "C106_shares",
    "C106_outgoing",
    "C106_rate_of_site",
    "C106_not_a_number"
   ],
   "note": "Error bound over all sequences of tasks, shares, outgoing rate and spreading of NaN proved; refuted parts: a rate can be negative before the task of the cell is solved (and through periodic boundaries), and the error is not relative to the rate."
  },
  {
   "property": "C107",
   "status": "partial",
   "theorems": [
    "C107_stays_valid",
    "C107_repaired",
    "C107_repaired_with_floor_refuted",
    "C107_accepted_change",
    "C107_not_a_number"
   ],
   "note": "Proved for arbitrary changes of type f64. Refuted part: repair of fractions outside of the bounds when cooling is prevented."
  }
 ]
}