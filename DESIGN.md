# Design of the verification

The subject is the Rust code in `/repo` (subsweep, a distributed sweep radiative
transfer code). The code is read as text; it is never run. For each property in
`properties.jsonl` this file says what is modelled and how it is proved. Models
are total, computable Gallina functions in `rocq/theories/*_Model.v`; every
definition cites the lines it models and states its simplifications. Independent
specifications are in `*_Spec.v`, proofs in `*_Proofs.v`, and the property
theorems, together with `Print Assumptions` and non-vacuity examples, in
`Props_*.v`.

## Conventions

* A Rust panic (index out of range, failed assert, unwrap on `None`, unsigned
  underflow) is `None` in an `option` result unless a comment says otherwise.
* `usize`/`u64`/`u128` quantities are `nat` or `N`/`Z` without wrap-around
  unless the property is about the width.
* Floating point numbers are replaced by exact rationals (`Q`, `Qc`) or by reals.
  All numerical properties are therefore statements about exact arithmetic, except
  C86–C93: there the numbers are those of IEEE 754 as formalized by Flocq, with
  rounding, overflow and special values.
* MPI is modelled as reliable FIFO channels per ordered pair of ranks and tag,
  with arbitrary finite delay. A send request may complete at any time after it
  was posted; only once the receiver has taken the message is completion
  guaranteed. Collectives are total functions of all ranks' contributions.
* Hash maps/sets are finite maps/sets or total functions; the binary heap of
  tasks is replaced by an adversary that may pick any queued task.

## Plan per property

| Id | Model | Proof |
|----|-------|-------|
| C01 | `get_regions_from` loop with fuel = number of files, panics explicit; `get_rank_assignment` as fold; input splitting | invariant: regions so far + position = prefix of the flattened list of (file, offset) pairs; spec is the flattened list |
| C02 | same functions with output splitting; dataset creation sizes | same invariant plus sizes |
| C03 | `get_chunk_sizes`, `div_ceil`, chunk division | sums by induction; concatenation law |
| C04 | per-rank barrier programs as a step relation over program counters; barrier = all ranks arrived | invariant on barrier counters; mutual exclusion, order, progress and measure |
| C05 | `iter_levels_in_sweep_order` as list function over bit positions | induction over number of levels (ruler sequence); exact count `2^(l-lowest)`; time sum in `Q` |
| C06 | `TimestepState` state machine | invariant over fold of runs; geometric sum |
| C07 | level choice in exact arithmetic (ceil log2 of a rational by search) | spec: smallest level whose step fits, clamped |
| C08 | `ActiveList` as record of vectors and bins | invariant over operation sequences |
| C09 | distributed sweep: per-rank program counter machine of the `solve` loop with queues, send buffers, requests and channels | inductive invariant relating missing counts, queued tasks, in-flight messages and solved set |
| C10 | same | progress lemma from acyclicity plus decreasing measure; fair rounds terminate |
| C11 | multi-sweep version with sweep-number ghost tags on messages | FIFO/epoch invariant |
| C12 | same with rates in `Qc` and abstract cell response | final state satisfies a recursion with unique solution over the DAG |
| C13 | `solve_task` shares | field identity; global invariant |
| C14 | two-rank witness, mixed levels | `_refuted` witness by computation, partial theorem for all cells active |
| C15 | periodic witness with two schedules | `_refuted` witness, partial theorem without periodic faces is C12 |
| C16 | `remap` loop with abstract nearest-direction function | `_refuted` witness; positive theorem when nearest map is injective |
| C17 | segments and `get_owning_rank` | interval partition |
| C18 | `binary_search` over keys | bounded depth, bracket invariant |
| C19 | exchange by removal/insertion of positions per component | multiset permutation, component zip law |
| C20 | `exchange_all` as send/receive program with tagged FIFO channels | epoch invariant |
| C21 | `DataByRank` as sorted association list | refinement to partial map |
| C22 | 2D Hilbert loop over bits | induction over depth: bijection and adjacency |
| C23 | 3D tables as functions on 24 states | finite table facts by computation lifted to an inductive proof |
| C24 | tree insertion with fuel = depth budget | structural invariant |
| C25 | periodic overlap test in exact arithmetic | 1-Lipschitz property of the minimal image |
| C26 | box wrap functions over `Q` | floor arithmetic |
| C27, C28 | cartesian neighbour construction on integer positions | symmetry; linear potential function for acyclicity |
| C29, C30 | chemistry stepping skeleton with abstract rate functions | invariants over the recursion |
| C31 | yaml tree as nested association list | lookup-after-update laws |
| C32 | nearest search protocol over ranks | minimum over union, pruning bound |
| C33 | ownership filter per rank | sum over ranks |
| C34 | lookup protocol in chunks | set equality |
| C35 | connection insertion on two ranks | multiset symmetry |
| C36, C37 | arenas of triangles/tetrahedra with faces and connections, geometric predicates as oracle | inductive invariant on split and flips; counting |
| C38, C39 | halo iteration of all ranks in lockstep (undecided tetras, radius searches, outgoing searches, halo cache, import) on top of the Delaunay model, the particle tree, the periodic box and the rank extents; circumspheres an arbitrary function of the corners | work list invariant: every tetra with an inner corner is undecided or was searched with a sphere that is large enough; caches and received haloes agree before every round |
| C40 | `Cyclic::next` over lists | ring walk; witness against the documented precondition |
| C41, C42 | determinants over `Q`/`Z` polynomials | ring identities, `nra` |
| C43 | bisection with depth limit | bracket invariant |
| C44 | output timer state machine | `_refuted` for steps longer than an interval, positive otherwise |
| C45 | message count symmetry from `init_counts` and `solve_task` | double counting |
| C46 | encoders/decoders | round trip |
| C47 | table search | range invariant |
| C48 | `solve` of the chemistry solver of the sweep with an abstract exponential | monotonicity over `Q` |
| C49 | `rotation_matrix`, `random_rotation_matrix` over the reals | orthogonality, determinant, preservation of scalar products |
| C50 | closed formula of the age of a flat universe over the reals, search for the scale factor on top of C43 | derivative (Friedmann equation), monotonicity, bracket |
| C51 | Gaussian elimination with row pivoting, and the checked 3x4 variant | each step preserves the solution set; diagonal nonzero at the end |
| C52 | `contains` of triangle and tetrahedron by signs of determinants | equivalence with convex combinations |
| C53 | closest point of a triangle, distance of a tetrahedron | minimality over all convex combinations |
| C54 | `get_intersection_type` | equivalence with the parameters of the intersection point |
| C55 | breadth first point location | search over a connected graph finds a containing simplex or none exists |
| C56 | the whole insertion in the plane with the exact predicates | invariants: the triangles tile the initial triangle (split and flip preserve it), each unchecked edge is on the stack; local Delaunay implies global Delaunay along a segment through the tiling |
| C57 | normalisation of the points to the unit square (`remap_point`) | similarity preserves circles for square extents; `_refuted` witness for a rectangle |
| C58 | same as C56 | two Delaunay triangulations of points in general position have the same triangles |
| C59 | same | every panic of the construction needs four cocircular or three collinear points; `_refuted` witness for grid points |
| C60 | halo iteration of all ranks on top of the geometric construction (with the 3x3 periodic images in the reference) | triangles at inner points have a searched circle, so they are empty with respect to all particles; uniqueness of Delaunay triangles |
| C61 | `voronoi/cell.rs` in 2D, `constructor/mod.rs` cell data | link of a point in a triangulation is one ring, so the cyclic arrangement succeeds |
| C62 | `Cell::contains` | the nearest particle among Delaunay neighbours is the nearest overall |
| C63 | polygon area, face areas, volume | shoelace identity over the ring |
| C64 | both cells of a face | same two circumcentres |
| C65 | all ranks: `Constructor::sweep_grid`, `plugin.rs` (cells, haloes, periodic haloes) | C60 per rank, every cell equals the one of the periodic grid of all particles |
| C66 | composition with the sweep model | the configuration built from the grids satisfies the assumptions of C09/C10; acyclicity by a potential along the direction; `C66_two_sides` compares the two faces between two cells |
| C67 | specification with the particles repeated on the infinite lattice | empty circles reach less than one box length beyond the box |
| C68 | the whole insertion in space with the exact predicates: `split3`, both flips, refused flips, point location | tiling by tetrahedra preserved; as long as a circumsphere contains the inserted point there is one that can be absorbed by the star of the point (the power of the point decreases across facets that it sees), and one of its neighbours is on the stack; so refused flips do no harm |
| C69 | same | two Delaunay triangulations of points in general position have the same tetrahedra |
| C70 | same | every panic needs five cospherical or four coplanar points; witness for two points of a cubic grid |
| C71 | `voronoi/cell.rs` in 3D | the tetrahedra around an edge form one ring (turning around the edge by the orientation), so the cyclic arrangement succeeds |
| C72 | `Cell<ThreeD>::contains` | the nearest particle among Delaunay neighbours is the nearest overall |
| C73 | `polygon3d.rs`, `pyramid_volume`, `volume` | consecutive circumcentres turn in one direction around the edge; the absolute values in the area are then those of a convex polygon |
| C74 | both cells of a face | the same list of tetrahedra around the edge |
| C75 | the halo iteration in space on the geometric triangulation | a tetrahedron with a local corner that survives has an empty circumsphere among everything, since its search found no other point (C38); a tetrahedron with an empty circumsphere and a local corner is in every Delaunay triangulation of a subset that has its corners |
| C76 | `sweep_grid`, `plugin.rs` in space | C71–C75 per rank; the star of a local particle is described by the empty circumspheres of the whole only, so no single triangulation of all images is needed |
| C77 | composition with the sweep model | as C66; the two polygons of a face are the same set of circumcentres in opposite order |
| C78 | specification with the particles repeated on the infinite lattice | empty spheres at a particle reach at most half a side beyond the box |
| C79 | `sweep/deadlock_detection.rs`, all ranks, the sum and the exchange as collective steps | invariant over the places of all ranks; the Voronoi grids by C77; two refutations |
| C80 | `arepo_postprocess/unit_reader.rs`, `io/input/mod.rs` (conversion), `cosmology.rs` (`get_factor`), `units/dimension.rs` | case analysis over the attributes, powers of rationals |
| C81 | `io/output/mod.rs` (`add_dimension_attrs`), `io/unit_reader.rs`, `remap.rs` (`get_scale_factor_difference`) | round trip; two refutations |
| C82 | `sweep/direction/mod.rs` (`from_num`, explicit directions), `sweep/direction/healpix.rs` | the tables are checked by computation and the result is lifted to all normals by linearity; in the plane sums of cosines and sines telescope |
| C83 | `sweep/time_series.rs` | sums over ranks are sums over the concatenation; two refutations |
| C84 | `performance.rs`, `stages.rs` | operations on different names do not interact; per name a stage is start, stop in every pass |
| C85 | `simulation/mod.rs`: `add_plugin`, ordered systems, `validate` | induction over the sequence of additions |
| C86 | `tetrahedron.rs`: `circumcircle_contains`, `circumcircle_contains_float` in f64 | error analysis of expressions (relative errors and multiples of powers of two for cancelled terms); witness for the fall back |
| C87 | `tetrahedron.rs`: `contains` in f64 | the same; values that are not zero exceed the smallest multiple, so the sign is right |
| C88 | `dimension.rs`: `remap_point` in f64 | error bounds, monotonicity of rounding |
| C89 | `simulation_box.rs`: wrap and nearest image in f64 | `%` is exact; Sterbenz' lemma |
| C90 | `peano_hilbert.rs`: position on the grid in f64 | error bounds against the padding; bijection of C22/C23 |
| C91 | `triangle.rs`: `get_line_intersection_type` in f64, `utils.rs`: Gaussian elimination in f64 | backward error of the elimination with pivots, Cramer's rule for the distance from the exact solution; exact fall back by C54; witnesses |
| C92 | `triangle.rs`: `contains` in f64 | as C91 for two equations; witnesses |
| C93 | `triangle.rs`: `circumcircle_contains` in f64 | error analysis of expressions; the rounded rows of the fall back; witness |
| C94 | `sync_communicator.rs`, `identified.rs`, all ranks, sends and rounds in any order | invariant over the history: what a rank knows of another one is what that one said before the last round |
| C95 | start-up systems of `main.rs`, their stages and command queues, temperature of `units/specific_impls.rs` | the allowed orders of each stage are enumerated by the permutations; the temperature is characterised by the law of the ideal gas |
| C96 | `arepo_postprocess/sources.rs` on the reader of C01 | the share of a rank depends on the number of entries only, so the four data sets are cut at the same stars |
| C97 | rates and derivatives of `hydrogen_only/mod.rs` over the real numbers | derivatives computed by the rules of calculus (Coquelicot), then equations of fractions with the roots and powers as unknowns |
| C98 | `temperature_change`, `ionized_fraction_change` | chain rule along constant energy; the change solves the linearised implicit equation |
| C99 | `num_newly_ionized_hydrogen_atoms`, `get_outgoing_rate`, `photoionization_rate`, `photoheating_rate`, `chemistry_output.rs` | algebra; bounds from `1 - x <= exp (-x) <= 1` |
| C100 | termination of `run` of `halo_iteration.rs`; `find_wrapped_point` | lexicographic measure: images not yet imported, then the sum over the undecided tetras of the number of times the search radius can still grow; the iteration over a tree takes at most as many steps as the tree has parts |
| C101 | `timestep_level.rs` in f64, the logarithm as an oracle with a bounded error | the quotient has a relative error of one rounding, the integer above the logarithm bounds the quotient by powers of two, the product with a power of two is exact; the counterexample is 16 plus one unit in the last place |
| C102 | names written by `format!` as lists of character codes | the number can be read back from the name; names of equal length are ordered as the numbers; the width covers every index below the count |
| C103 | `get_file_or_all_hdf5_files_in_path_if_dir`, `all_input_files` with `Reader` (C01) for each rank | C01 for the files in the common order; reading commutes with maps; two ranks with swapped orders as a counterexample |
| C104 | `Fields`, `OutputPlugin` and `verify_output_fields_system` | induction over the plugins added; reading of the untagged enum as serde does it |
| C105 | Accumulation of the time, end of the run and times of the snapshots in f64 | relative error of each sum (Flocq), induction over the steps |
| C106 | `solve_task`, `handle_local_neighbour` and `get_outgoing_rate` for one cell in f64 | invariant on the absolute error over the tasks; rounding is monotone (Flocq) |
| C107 | Time integration of the chemistry in f64 with arbitrary changes | cases of finite, infinite and NaN numbers for one update; induction over the depth |

## Where the model departs from the plan

* C16, C17, C18, C24, C29–C35, C40, C44: the plan had expected the English claim
  to hold (apart from C14–C16, C40 and C44). Modelling the code showed that it
  does not hold in every case. The exact part that holds is proved for all
  inputs and the case that fails is a `_refuted` theorem with a witness.
* C36, C37 hold for any predicates and say nothing about geometry. The Delaunay
  property is C56 in the plane and C68 in space.
* C56–C67 are about the plane, C68–C78 about space. `whole2 … = Some whole` (the construction of all
  particles and images does not panic) is a hypothesis of C60, C65, C66 and C67, but not of C75–C78: images of a
  particle are collinear, so the general position of C59 does not cover them.
* C38: the statement is about the sphere that the code computes for a tetra. That
  this sphere is the circumsphere is C41; that a radius is a square root is not
  expressible over `Q`.

## Which code is modelled

| Model | Code (`src/…`) | Remarks |
|---|---|---|
| `FileDist_Model` | `io/file_distribution.rs`, reading and writing of regions in `io/input/mod.rs`, `io/output/mod.rs`, `get_chunk_sizes` etc. in `communication/exchange_communicator.rs` | HDF5 files are lists |
| `Barrier_Model` | barrier loops in `io/output/mod.rs` and `mpi_log.rs` | all interleavings |
| `Timestep_Model` | `sweep/timestep_state.rs`, `sweep/timestep_level.rs`, `sweep/active_list.rs`, level choice in `sweep/mod.rs` | exact `log2` |
| `Sweep_Model` | `sweep/mod.rs` (init, solve loop, tasks, messages, levels), `sweep/communicator.rs`, `task.rs`, `site.rs`, `count_by_dir.rs`, `grid/cell.rs` | channels, requests and buffers explicit; rates in `Qc`; chemistry an arbitrary function |
| `Rotation_Model` | `sweep/direction/mod.rs` | stdlib reals |
| `Decomp_Model` | `domain/decomposition.rs`, `domain/key.rs` | loads of unit weight |
| `ParticleExchange_Model` | `domain/exchange_data_plugin.rs`, `domain/mod.rs` | entity allocator an oracle |
| `Exchange_Model`, `Collective_Model` | `communication/exchange_communicator.rs`, `sized_communicator.rs` | |
| `DataByRank_Model` | `communication/data_by_rank.rs` | |
| `Encoding_Model` | `communicated_option.rs`, `mpi_world.rs` (displacements), `quadtree/node_index.rs`, `constructor/parallel/mpi_types.rs`, `simulation_box.rs` (wraps) | |
| `Hilbert_Model` | `peano_hilbert.rs` | 2D and 3D |
| `Box_Model` | `simulation_box.rs`, `extent.rs`, `domain/extent.rs` | exact rationals |
| `Tree_Model` | `quadtree/mod.rs`, `quadtree/radius_search.rs`, `domain/quadtree.rs` | 2D and 3D |
| `Cartesian_Model` | `sweep/grid/cartesian.rs`, `sweep/grid/cell.rs` | any dimension |
| `Chem_Model` | stepping in `chemistry/hydrogen_only/mod.rs`, `chemistry/timescale.rs` | rate coefficients arbitrary functions |
| `Params_Model` | `parameter_plugin/parameter_file_contents.rs`, `command_line_options.rs` | YAML parser an oracle |
| `Sources_Model` | `source_systems.rs` | |
| `Remap_Model` | `arepo_postprocess/remap.rs`, `domain/extent.rs` | k-d tree an oracle |
| `ReadGrid_Model` | `arepo_postprocess/read_grid/*.rs` | |
| `Cyclic_Model` | `voronoi/utils.rs` | |
| `Timer_Model` | `io/output/timer.rs`, `simulation_plugin/mod.rs`, order of systems | |
| `Cosmology_Model` | `cosmology.rs` | rationals for the search, reals for the age |
| `Bpass_Model` | `arepo_postprocess/bpass.rs` | tables transcribed as decimals |
| `Geometry_Model`, `LinSolve_Model` | `voronoi/math/utils.rs`, `math/traits.rs`, `precision_types.rs`, `primitives/triangle.rs`, `primitives/tetrahedron.rs` | exact arithmetic |
| `Delaunay_Model`, `DelaunayGeo_Model` | `voronoi/delaunay/*.rs`, `voronoi/indexed_arena.rs` | |
| `DelaunayRemap_Model` | `voronoi/delaunay/mod.rs` (construction, `remap_point`), `constructor/local.rs`, `constructor/mod.rs` | 2D |
| `DelaunayRemap3_Model` | the same in 3D, `primitives/tetrahedron.rs` (extent), `extent.rs` | |
| `Voronoi_Model` | `voronoi/cell.rs` (2D), `constructor/triangulation_data.rs`, `primitives/polygon.rs` (2D), `math/traits.rs` | areas and squared lengths are exact, `f64::sqrt` is not taken |
| `Voronoi3_Model` | `voronoi/cell.rs` (3D), `primitives/polygon3d.rs` | corners exact, areas and volumes in the stdlib reals |
| `VoronoiGrid_Model` | `constructor/mod.rs` (`sweep_grid`), `constructor/parallel/plugin.rs` | directions of faces are exact differences |
| `VoronoiGrid3_Model` | the same in 3D | areas are reals, rounded by an arbitrary function that keeps positive numbers positive |
| `HaloDelaunay_Model` | `constructor/parallel/mod.rs`, `halo_iteration.rs` on the geometric construction | 2D |
| `HaloDelaunay3_Model` | the same in 3D | |
| `Halo_Model`, `HaloGeo_Model` | `voronoi/constructor/halo_iteration.rs`, `halo_cache.rs`, `constructor/parallel/mod.rs`, `domain/mod.rs` | |
| `Deadlock_Model` | `sweep/deadlock_detection.rs` | messages in any order |
| `Units_Model` | `units/dimension.rs`, `arepo_postprocess/unit_reader.rs`, `io/unit_reader.rs`, conversion in `io/input/mod.rs`, attributes in `io/output/mod.rs`, `cosmology.rs` (`get_factor`), `remap.rs` (scale factor) | attributes are a finite map, exact rationals |
| `Directions_Model` | `sweep/direction/mod.rs`, `sweep/direction/healpix.rs` | tables transcribed digit by digit |
| `TimeSeries_Model` | `sweep/time_series.rs` | exact rationals; the writing of the file is not modelled |
| `Performance_Model` | `performance.rs`, `stages.rs` | different labels have different strings |
| `Plugins_Model` | `simulation/mod.rs`, `simulation/subsweep_plugin.rs` | nested additions are listed in the order in which they begin |
| `Float_Model` | `tetrahedron.rs` (`contains`, `circumcircle_contains`), `precision_types.rs`, `utils.rs` (`Sign`), `dimension.rs` (`remap_point`), `simulation_box.rs` (components), `peano_hilbert.rs` (positions), all in f64 | the binary64 operations of Flocq, round to nearest even; one NaN |
| `FloatFlip_Model` | `triangle.rs` (`get_line_intersection_type`, `contains`, `circumcircle_contains`), `utils.rs` (`solve_system_of_equations`, `determinant3x3_sign`), all in f64 | as `Float_Model`; `powi(2)` is one multiplication |
| `Sync_Model` | `sync_communicator.rs`, `identified.rs` | the exchange is replaced by its result (C20); the caller spawns, updates and despawns as told |
| `StartUp_Model` | start-up systems of `main.rs`, `units/specific_impls.rs` 40-71 | exact numbers; one particle; exchange of particles and remapping between the stages left out |
| `StarSources_Model` | `arepo_postprocess/sources.rs` | the age is an oracle (C43); conversion of units left out |
| `HydrogenRates_Model` | `hydrogen_only/mod.rs` 137-354, `chemistry_output.rs` | real numbers; one system of units; `powf` is `Rpower` |
| `FloatLevel_Model` | `sweep/timestep_level.rs` 27-48 in f64 | as `Float_Model`; `log2` of the mathematical library is a variable of the section, asked to have a bounded error; `powi` of one half is exact |
| `OutputNames_Model` | `io/output/mod.rs` 142-176, `simulation_builder.rs` 252-261 | `log10` is a variable of the section; the directories above are left out |
| `InputListing_Model` | `io/input/mod.rs` 72-100, 182-191, 234-243 | a directory is the list of its entries in the order of `read_dir`; opening of files cannot fail |
| `OutputFields_Model` | `io/output/parameters.rs`, `io/output/plugin.rs` 73-188, `io/output/attribute.rs` | the reading of an untagged enum by serde is transcribed from its documentation; order of the systems left out (C44, C85) |
| `FloatTime_Model` | `sweep/mod.rs` 717, `simulation_plugin/mod.rs` 80 and 124-134, `io/output/timer.rs` 21-41 and 60-63 in f64 | times in one unit; the call of the sweep that does nothing is left out; the order of the stages is that of `Timer_Model` (C44) |
| `FloatRate_Model` | `sweep/mod.rs` 412-496, `sweep/site.rs` 26-56, `chemistry/mod.rs` 61-65, `hydrogen_only/mod.rs` 72-88 in f64 | one cell and one direction, any number of upwind cells; the value of `exp` is a parameter; effective areas are given; order of tasks arbitrary |
| `FloatChem_Model` | `hydrogen_only/mod.rs` 90-121 and 356-461 in f64 | the changes of temperature and fraction are arbitrary functions with values of type f64; one NaN |

## Not modelled

HDF5 itself, MPI library internals, the ECS scheduler, floating-point rounding outside of
C86–C93, C101 and C105–C107, logging and plotting. Any property depending on
these is stated relative to an abstract function or an exact-arithmetic model.

Also not modelled: the writing of `io/time_series.rs`, `voronoi/visualizer.rs`,
the arithmetic of quantities with units (checked by the Rust type checker), the
execution of systems by the scheduler beyond the order of stages, the derive
macros, and the f64 heuristic of the 2D `distance_to_point`.

## Trusted base

* the Coq 8.16.1 kernel (and `vm_compute`);
* the correspondence between the cited Rust lines and the Gallina definitions;
* the MPI assumptions listed under *Conventions*;
* for C86–C93, C101 and C105–C107: that f64 arithmetic of the program is that of Flocq's `binary_float 53 1024`
  (no fused multiply-add, no extended precision), that `%` of f64 is exact and that `glam` adds
  the products of `dot` from left to right;
* for each theorem the output of `Print Assumptions` (see the end of this file);
* readings of library functions on which models rely:
  `Signed::is_positive/is_negative` of exact numbers are `> 0`/`< 0`;
  `slice::binary_search` is the algorithm of the standard library up to 1.81;
  `max_by` returns the last maximum; `f64::rem_euclid` is exact; `powf(1.5)` is
  `a * sqrt a`; the generational arena never reuses an index; the entity
  allocator returns unused ids; commands are applied at the end of a stage; run
  criteria are evaluated before the systems of their stage;
* oracles (arbitrary functions or relations, constrained only by the stated
  hypotheses): nearest neighbour search of the k-d tree, `exp`, the YAML parser,
  the order in which hash sets and the binary heap yield their elements, the
  order of messages of different ranks, centre and radius of a circumsphere
  (in C38/C39), physical rate coefficients.

## Findings

Differences between what the code says or intends and what it does, found while
modelling. Those with a property id are proved as a `_refuted` theorem.

* Sweep: corrections to inactive cells on *other* ranks are dropped while those
  to inactive local cells are kept (C14). The rate passed through a periodic
  boundary depends on message timing (C15). `remap` of directions overwrites
  instead of accumulating (C16). `SweepCommunicator::drop` waits for the first
  pending request only. `check_some_initial_task_exists` returns before a
  collective on some ranks.
* Domain: `Key::middle` of two odd keys rounds down twice and `MAX_DEPTH` is too
  small for the width of keys (C18). The decomposition panics with an empty rank
  or repeated odd keys, and a raw key equal to the largest key has no owner
  (C17). Segment loads use closed ranges, so keys on a cut count twice.
  Ranks without particles are possible and make later stages panic
  (`communicate_extents` drops them and misindexes the others; C32, C33).
* Sources whose key is above the largest particle key are dropped; an owning
  rank without particles panics (C33). Sources outside of the box are dropped
  silently.
* `exchange_all` blocks under rendezvous sends when an entry is missing (C20).
  `get_tag_for_type` takes `abs()` of a hash that can be `i16::MIN`.
* Quadtree leaves can hold `max_num_particles_per_leaf + 1` particles (C24).
  `minimize_component` shifts at most once, so queries far outside of the box see
  first order images only (C25).
* Cartesian grid: area and volume use the nominal cell size, positions ignore the
  minimum of the box.
* Chemistry: failed convergence leaves a state part-way and the error is
  swallowed (C30); the recommended timestep comes from the last half only; clamp
  panics when the floor is above `1 - 1e-10`, and a fraction of 0 stays 0 when
  cooling is disabled (C29).
* Parameters: an override of a whole section ends the list of overrides, an
  override in an empty section panics (C31); overrides through non-mappings
  panic; a failed parse in a missing section falls back to null; command-line
  values containing `:` are refused.
* Output: the timer lags when a step is longer than the interval; the run
  overshoots the final time by one sweep (C44); the scale factor attribute lags
  the time attribute.
* Remap panics on ranks without records (C32) and takes the maximum of old and
  new values. Ids stored twice are resolved by rank order (C34). A connection
  with one periodic end appears in only one cell; `allow_periodic` reaches a
  `todo!()` (C35); an unknown id panics.
* `arrange_cyclic_by`: the documented precondition is not sufficient (C40).
* Rounding: the fall back of the in-sphere test is not exact, as the squared norms are rounded before they are lifted
  (C86). Different positions can be mapped to the same point (C88). The wrap of a tiny negative number is the length of
  the box (C89). For an extent close to the resolution of f64 the last position is not on the grid of the curve (C90);
  in the plane `rot` then subtracts it from a smaller number. The elimination with f64 numbers has an error that grows with
  the inverse of the volume, while its result is compared with the fixed number 1e-15: close to an edge a wrong flip is
  chosen (C91) and a point is found in the wrong triangle (C92). The fall back of the in-circle test is not exact either (C93).
* Mirrors: a `SyncCommunicator` panics in the first `send_sync` after a `receive_sync`, because `drain_all` empties the
  vector of ranks (C94). The program does not use this communicator.
* A data set of the stars that is missing in one file only leads to a warning; the data of different stars are combined (C96).
* An initial ionized fraction given as parameter is used without any check, also outside of 0 to 1 (C95).
* The implicit step of the ionized fraction treats the rate of photoionization per atom as constant, although it depends on the fraction (C98).
* Photons that arrive below the threshold and are not absorbed are lost (C99).
* Timestep levels: with rounding the step can be longer than desired by a factor of about 1 + 2^-52, even with a correctly rounded logarithm; a desired step that is NaN gives the longest step (C101).
* Snapshot names sort wrongly beyond the padding (C102). Files of an input directory are read in the order of `read_dir`, which each rank asks for itself and which is not sorted: different orders on two ranks lose entries (C103).
* The documented value `all` of the parameter `fields` cannot be read, as the enum is untagged (C104).
* The time of the simulation is summed up: with steps of 0.1 the run to the time 1 takes eleven steps, and the snapshot at 1 is written a step late (C105). A final time that is not a number never ends the run.
* Rates are updated by adding corrections: after a bright source has become faint the rate that enters the next cell can be zero or negative (C106). `make_positive` is applied to `incoming_total_rate` only; `periodic_source` can stay negative. A rate that is not a number stays for ever, also when its cause is gone.
* If cooling is prevented, a fraction above `1 - 1e-10` in the input, such as 1, makes the first update panic, while it is repaired if cooling is not prevented (C107).
* Cosmology: the search panics beyond `a = 1` (C50).
* Voronoi: two images of one particle in one search sphere panic (C39); the halo
  iteration need not stop for a NaN radius or zero characteristic length; a point
  coplanar with a face of any visited tetra can panic the 3D point location
  (C52, C55); a 3D flip panics when the face opposite to the reflex point is on
  the hull (C37); 3D flips may be refused and leave a face that fails the circle
  test until another flip removes it (C68); an always-true circle test breaks the second insertion in 2D (so C36
  assumes that corners are not inside). The normalisation of the points scales the axes
  separately, so for a box that is not a cube the result is not the Delaunay
  triangulation of the particles and cells do not contain the nearest points (C57, C62);
  `simulation_box.rs` builds cubes only, but the type allows other boxes. Points on a
  grid make the construction panic (C59, C70), and so can a few particles in a periodic box, as two
  particles and their images across the same side are on a plane. `plugin.rs` spawns one halo entity per image
  of a remote particle, all with the same id. On a single rank without haloes cells at
  the boundary extend far outside of the box.

## Assumptions of each theorem

Output of `Print Assumptions` (it is also printed by the build, beneath each theorem in `Props_*.v`). "closed" means "Closed under the global context". R3 stands for the axioms of the real numbers of the standard library, `ClassicalDedekindReals.sig_not_dec`, `ClassicalDedekindReals.sig_forall_dec`, `FunctionalExtensionality.functional_extensionality_dep`; R4 for R3 and `Classical_Prop.classic`. No axiom is added by this development and none comes from another library.

| Property | Theorem | File | Assumptions |
|---|---|---|---|
| C01 | `C01_input_regions_partition` | `Props_IO.v` | closed |
| C01 | `C01_read_all_entries_once` | `Props_IO.v` | closed |
| C02 | `C02_output_regions_partition` | `Props_IO.v` | closed |
| C02 | `C02_snapshot_complete` | `Props_IO.v` | closed |
| C02 | `C02_snapshot_round_trip` | `Props_IO.v` | closed |
| C03 | `C03_chunks_cover_region` | `Props_IO.v` | closed |
| C03 | `C03_rounds_agree_and_cover` | `Props_IO.v` | closed |
| C04 | `C04_output_serialized` | `Props_Output.v` | closed |
| C04 | `C04_debug_output_serialized` | `Props_Output.v` | closed |
| C05 | `C05_run_advances_all_cells_equally` | `Props_Timestep.v` | closed |
| C06 | `C06_levels_in_range_and_aligned` | `Props_Timestep.v` | closed |
| C07 | `C07_level_choice` | `Props_Timestep.v` | closed |
| C08 | `C08_active_list_exact` | `Props_Timestep.v` | closed |
| C08 | `C08_reference_meaning` | `Props_Timestep.v` | closed |
| C08 | `C08_rebinning_total` | `Props_Timestep.v` | closed |
| C09 | `C09_never_panics` | `Props_Sweep.v` | closed |
| C09 | `C09_every_task_solved_once` | `Props_Sweep.v` | closed |
| C09 | `C09_upwind_cells_first` | `Props_Sweep.v` | closed |
| C09 | `C09_nothing_left_behind` | `Props_Sweep.v` | closed |
| C10 | `C10_fair_schedules_finish` | `Props_Sweep.v` | closed |
| C10 | `C10_progress_is_possible` | `Props_Sweep.v` | closed |
| C10 | `C10_work_never_increases` | `Props_Sweep.v` | closed |
| C10 | `C10_cycle_blocks` | `Props_Sweep.v` | closed |
| C11 | `C11_takes_messages_of_current_sweep` | `Props_Sweep.v` | closed |
| C11 | `C11_batches_belong_to_one_sweep` | `Props_Sweep.v` | closed |
| C12 | `C12_results_follow_recursion` | `Props_Sweep.v` | closed |
| C12 | `C12_schedule_independent` | `Props_Sweep.v` | closed |
| C13 | `C13_change_is_handed_on` | `Props_Sweep.v` | closed |
| C13 | `C13_nothing_is_lost` | `Props_Sweep.v` | closed |
| C13 | `C13_incoming_is_sum_of_shares` | `Props_Sweep.v` | closed |
| C14 | `C14_distribution_independence_refuted` | `Props_Sweep.v` | closed |
| C14 | `C14_distribution_independence_partial` | `Props_Sweep.v` | closed |
| C15 | `C15_periodic_schedule_independence_refuted` | `Props_Sweep.v` | closed |
| C16 | `C16_redistribution` | `Props_Rotation.v` | closed |
| C16 | `C16_identity_rotation` | `Props_Rotation.v` | closed |
| C16 | `C16_total_preserved_refuted` | `Props_Rotation.v` | closed |
| C17 | `C17_every_key_is_owned` | `Props_Domain.v` | closed |
| C17 | `C17_decomposition_succeeds` | `Props_Domain.v` | closed |
| C17 | `C17_owner_of_sorted_cuts` | `Props_Domain.v` | closed |
| C17 | `C17_largest_key_refuted` | `Props_Domain.v` | closed |
| C17 | `C17_success_refuted` | `Props_Domain.v` | closed |
| C17 | `C17_particles_are_owned_2d` | `Props_Hilbert.v` | closed |
| C17 | `C17_particles_are_owned_3d` | `Props_Hilbert.v` | closed |
| C18 | `C18_search_terminates` | `Props_Domain.v` | closed |
| C18 | `C18_cut_near_jump_partial` | `Props_Domain.v` | closed |
| C18 | `C18_hits_target_refuted` | `Props_Domain.v` | closed |
| C19 | `C19_particles_conserved` | `Props_Particles.v` | closed |
| C19 | `C19_data_fits_protocol` | `Props_Particles.v` | closed |
| C20 | `C20_exchange_delivers_exactly` | `Props_Exchange.v` | closed |
| C20 | `C20_terminates_without_buffering` | `Props_Exchange.v` | closed |
| C20 | `C20_missing_entries_can_block` | `Props_Exchange.v` | closed |
| C21 | `C21_behaves_like_a_map` | `Props_Exchange.v` | closed |
| C21 | `C21_size` | `Props_Exchange.v` | closed |
| C22 | `C22_bijection` | `Props_Hilbert.v` | closed |
| C22 | `C22_consecutive_keys_adjacent` | `Props_Hilbert.v` | closed |
| C22 | `C22_intervals_connected` | `Props_Hilbert.v` | closed |
| C23 | `C23_bijection` | `Props_Hilbert.v` | closed |
| C23 | `C23_consecutive_keys_adjacent` | `Props_Hilbert.v` | closed |
| C23 | `C23_intervals_connected` | `Props_Hilbert.v` | closed |
| C24 | `C24_tree_content_3d` | `Props_Tree.v` | closed |
| C24 | `C24_tree_content_2d` | `Props_Tree.v` | closed |
| C24 | `C24_leaf_limit_refuted` | `Props_Tree.v` | closed |
| C25 | `C25_search_exact_3d` | `Props_Tree.v` | closed |
| C25 | `C25_search_exact_2d` | `Props_Tree.v` | closed |
| C26 | `C26_wrap_3d` | `Props_Box.v` | closed |
| C26 | `C26_wrap_2d` | `Props_Box.v` | closed |
| C26 | `C26_distance_3d` | `Props_Box.v` | closed |
| C26 | `C26_distance_2d` | `Props_Box.v` | closed |
| C26 | `C26_images_3d` | `Props_Box.v` | closed |
| C26 | `C26_images_2d` | `Props_Box.v` | closed |
| C27 | `C27_every_rank_constructs` | `Props_Cartesian.v` | closed |
| C27 | `C27_faces_mutual` | `Props_Cartesian.v` | closed |
| C27 | `C27_one_face_per_side` | `Props_Cartesian.v` | closed |
| C27 | `C27_local_ids_without_gaps` | `Props_Cartesian.v` | closed |
| C27 | `C27_cells_are_the_grid_points` | `Props_Cartesian.v` | closed |
| C27 | `C27_halos_exact` | `Props_Cartesian.v` | closed |
| C27 | `C27_slab_ranks_exist` | `Props_Cartesian.v` | closed |
| C28 | `C28_no_cycle` | `Props_Cartesian.v` | closed |
| C28 | `C28_sweep_assumptions_met` | `Props_Cartesian.v` | closed |
| C28 | `C28_sweeps_finish` | `Props_Cartesian.v` | closed |
| C29 | `C29_bounds` | `Props_Chem.v` | closed |
| C29 | `C29_temperature_positive` | `Props_Chem.v` | closed |
| C29 | `C29_zero_fraction_refuted` | `Props_Chem.v` | closed |
| C29 | `C29_full_fraction_refuted` | `Props_Chem.v` | closed |
| C30 | `C30_substeps` | `Props_Chem.v` | closed |
| C30 | `C30_requested_time_refuted` | `Props_Chem.v` | closed |
| C30 | `C30_whole_step` | `Props_Chem.v` | closed |
| C31 | `C31_overrides` | `Props_Params.v` | closed |
| C31 | `C31_value_unique` | `Props_Params.v` | closed |
| C31 | `C31_failure` | `Props_Params.v` | closed |
| C31 | `C31_extraction` | `Props_Params.v` | closed |
| C31 | `C31_only_this_section` | `Props_Params.v` | closed |
| C31 | `C31_command_line` | `Props_Params.v` | closed |
| C31 | `C31_command_line_error` | `Props_Params.v` | closed |
| C31 | `C31_whole_section` | `Props_Params.v` | closed |
| C31 | `C31_last_override_refuted` | `Props_Params.v` | closed |
| C31 | `C31_empty_section_refuted` | `Props_Params.v` | closed |
| C32 | `C32_nearest` | `Props_Remap.v` | closed |
| C32 | `C32_rank_without_data_refuted` | `Props_Remap.v` | closed |
| C33 | `C33_deposited_once` | `Props_Sources.v` | closed |
| C33 | `C33_total` | `Props_Sources.v` | closed |
| C33 | `C33_source_in_box_refuted` | `Props_Sources.v` | closed |
| C33 | `C33_empty_rank_refuted` | `Props_Sources.v` | closed |
| C34 | `C34_lookup` | `Props_ReadGrid.v` | closed |
| C34 | `C34_duplicate_id_refuted` | `Props_ReadGrid.v` | closed |
| C35 | `C35_types` | `Props_ReadGrid.v` | closed |
| C35 | `C35_cells` | `Props_ReadGrid.v` | closed |
| C35 | `C35_periodic_end_refuted` | `Props_ReadGrid.v` | closed |
| C35 | `C35_allow_periodic_refuted` | `Props_ReadGrid.v` | closed |
| C36 | `C36_consistent` | `Props_Delaunay.v` | closed |
| C36 | `C36_counts` | `Props_Delaunay.v` | closed |
| C36 | `C36_reported` | `Props_Delaunay.v` | closed |
| C36 | `C36_total` | `Props_Delaunay.v` | closed |
| C36 | `C36_terminates` | `Props_Delaunay.v` | closed |
| C36 | `C36_geometry` | `Props_Delaunay.v` | closed |
| C37 | `C37_consistent` | `Props_Delaunay.v` | closed |
| C37 | `C37_counts` | `Props_Delaunay.v` | closed |
| C37 | `C37_reported` | `Props_Delaunay.v` | closed |
| C37 | `C37_terminates` | `Props_Delaunay.v` | closed |
| C37 | `C37_split_total` | `Props_Delaunay.v` | closed |
| C37 | `C37_flip_panics` | `Props_Delaunay.v` | closed |
| C37 | `C37_geometry` | `Props_Delaunay.v` | closed |
| C38 | `C38_complete_2d` | `Props_Halo.v` | closed |
| C38 | `C38_complete_3d` | `Props_Halo.v` | closed |
| C38 | `C38_sound_2d` | `Props_Halo.v` | closed |
| C38 | `C38_sound_3d` | `Props_Halo.v` | closed |
| C39 | `C39_received_once_2d` | `Props_Halo.v` | closed |
| C39 | `C39_received_once_3d` | `Props_Halo.v` | closed |
| C39 | `C39_panics_2d` | `Props_Halo.v` | closed |
| C39 | `C39_panics_3d` | `Props_Halo.v` | closed |
| C40 | `C40_windows` | `Props_Cyclic.v` | closed |
| C40 | `C40_ring` | `Props_Cyclic.v` | closed |
| C40 | `C40_each_once` | `Props_Cyclic.v` | closed |
| C40 | `C40_small` | `Props_Cyclic.v` | closed |
| C40 | `C40_documented_precondition_refuted` | `Props_Cyclic.v` | closed |
| C40 | `C40_chord_refuted` | `Props_Cyclic.v` | closed |
| C41 | `C41_circle` | `Props_Geometry.v` | closed |
| C41 | `C41_center2` | `Props_Geometry.v` | closed |
| C41 | `C41_sphere` | `Props_Geometry.v` | closed |
| C41 | `C41_branches_agree` | `Props_Geometry.v` | closed |
| C41 | `C41_center3` | `Props_Geometry.v` | closed |
| C42 | `C42_triangle` | `Props_Geometry.v` | closed |
| C42 | `C42_tetrahedron` | `Props_Geometry.v` | closed |
| C43 | `C43_sound` | `Props_Cosmology.v` | closed |
| C43 | `C43_complete` | `Props_Cosmology.v` | closed |
| C43 | `C43_fails` | `Props_Cosmology.v` | closed |
| C44 | `C44_numbers` | `Props_Timer.v` | closed |
| C44 | `C44_regular` | `Props_Timer.v` | closed |
| C44 | `C44_none_skipped` | `Props_Timer.v` | closed |
| C44 | `C44_last` | `Props_Timer.v` | closed |
| C44 | `C44_long_step_refuted` | `Props_Timer.v` | closed |
| C44 | `C44_last_refuted` | `Props_Timer.v` | closed |
| C45 | `C45_counts_agree` | `Props_Sweep.v` | closed |
| C45 | `C45_levels_are_known_after_exchange` | `Props_Sweep.v` | closed |
| C46 | `C46_option_round_trip` | `Props_Encoding.v` | closed |
| C46 | `C46_wrap_round_trip` | `Props_Encoding.v` | closed |
| C46 | `C46_node_index_round_trip` | `Props_Encoding.v` | closed |
| C46 | `C46_displacements` | `Props_Encoding.v` | closed |
| C46 | `C46_gather_is_concatenation` | `Props_Encoding.v` | closed |
| C47 | `C47_lookup` | `Props_Bpass.v` | closed |
| C47 | `C47_positive` | `Props_Bpass.v` | closed |
| C47 | `C47_any_table` | `Props_Bpass.v` | closed |
| C48 | `C48_no_amplification` | `Props_Chem.v` | closed |
| C49 | `C49_random_matrix_is_rotation` | `Props_Rotation.v` | R4 |
| C49 | `C49_directions_keep_angles` | `Props_Rotation.v` | R4 |
| C49 | `C49_axis_fixed` | `Props_Rotation.v` | R3 |
| C50 | `C50_friedmann` | `Props_Cosmology.v` | R4 |
| C50 | `C50_additive` | `Props_Cosmology.v` | R4 |
| C50 | `C50_increasing` | `Props_Cosmology.v` | R4 |
| C50 | `C50_scalefactor_sound` | `Props_Cosmology.v` | R4 |
| C50 | `C50_scalefactor_complete` | `Props_Cosmology.v` | R4 |
| C50 | `C50_outside` | `Props_Cosmology.v` | R4 |
| C51 | `C51_sound` | `Props_Geometry.v` | closed |
| C51 | `C51_unique` | `Props_Geometry.v` | closed |
| C51 | `C51_complete` | `Props_Geometry.v` | closed |
| C51 | `C51_checked` | `Props_Geometry.v` | closed |
| C52 | `C52_triangle` | `Props_Geometry.v` | closed |
| C52 | `C52_degenerate` | `Props_Geometry.v` | closed |
| C52 | `C52_tetrahedron` | `Props_Geometry.v` | closed |
| C53 | `C53_triangle` | `Props_Geometry.v` | closed |
| C53 | `C53_tetrahedron` | `Props_Geometry.v` | closed |
| C54 | `C54_line` | `Props_Geometry.v` | closed |
| C54 | `C54_parallel` | `Props_Geometry.v` | closed |
| C55 | `C55_locate2` | `Props_Delaunay.v` | closed |
| C55 | `C55_locate3` | `Props_Delaunay.v` | closed |
| C56 | `C56_delaunay` | `Props_Delaunay2.v` | closed |
| C56 | `C56_points` | `Props_Delaunay2.v` | closed |
| C56 | `C56_all_triangles` | `Props_Delaunay2.v` | closed |
| C56 | `C56_any_table` | `Props_Delaunay2.v` | closed |
| C57 | `C57_tiles` | `Props_Delaunay2.v` | closed |
| C57 | `C57_square` | `Props_Delaunay2.v` | closed |
| C57 | `C57_periodic` | `Props_Delaunay2.v` | closed |
| C57 | `C57_images` | `Props_Delaunay2.v` | closed |
| C57 | `C57_delaunay_refuted` | `Props_Delaunay2.v` | closed |
| C58 | `C58_order` | `Props_Delaunay2.v` | closed |
| C59 | `C59_total` | `Props_Delaunay2.v` | closed |
| C59 | `C59_total_square` | `Props_Delaunay2.v` | closed |
| C59 | `C59_inside` | `Props_Delaunay2.v` | closed |
| C59 | `C59_grid_panics` | `Props_Delaunay2.v` | closed |
| C60 | `C60_same_triangles` | `Props_HaloDelaunay.v` | closed |
| C60 | `C60_any_coordinates` | `Props_HaloDelaunay.v` | closed |
| C60 | `C60_ranks_agree` | `Props_HaloDelaunay.v` | closed |
| C60 | `C60_exact_circles` | `Props_HaloDelaunay.v` | closed |
| C61 | `C61_cells` | `Props_Voronoi.v` | closed |
| C62 | `C62_contains` | `Props_Voronoi.v` | closed |
| C62 | `C62_contains_refuted` | `Props_Voronoi.v` | closed |
| C63 | `C63_volume` | `Props_Voronoi.v` | closed |
| C64 | `C64_mutual` | `Props_Voronoi.v` | closed |
| C65 | `C65_whole_cells` | `Props_VoronoiGrid.v` | closed |
| C66 | `C66_sweep_assumptions_met` | `Props_VoronoiGrid.v` | closed |
| C66 | `C66_two_sides` | `Props_VoronoiGrid.v` | closed |
| C66 | `C66_sweeps_finish` | `Props_VoronoiGrid.v` | closed |
| C66 | `C66_distinct` | `Props_VoronoiGrid.v` | closed |
| C67 | `C67_infinite_lattice` | `Props_VoronoiGrid.v` | closed |
| C68 | `C68_delaunay` | `Props_Delaunay3.v` | closed |
| C68 | `C68_points` | `Props_Delaunay3.v` | closed |
| C68 | `C68_all_tetras` | `Props_Delaunay3.v` | closed |
| C68 | `C68_any_table` | `Props_Delaunay3.v` | closed |
| C68 | `C68_tiles` | `Props_Delaunay3.v` | closed |
| C68 | `C68_cube` | `Props_Delaunay3.v` | closed |
| C68 | `C68_periodic` | `Props_Delaunay3.v` | closed |
| C68 | `C68_images` | `Props_Delaunay3.v` | closed |
| C69 | `C69_order` | `Props_Delaunay3.v` | closed |
| C70 | `C70_total` | `Props_Delaunay3.v` | closed |
| C70 | `C70_total_cube` | `Props_Delaunay3.v` | closed |
| C70 | `C70_inside` | `Props_Delaunay3.v` | closed |
| C70 | `C70_grid_panics` | `Props_Delaunay3.v` | closed |
| C71 | `C71_cells` | `Props_Voronoi3.v` | closed |
| C72 | `C72_contains` | `Props_Voronoi3.v` | closed |
| C73 | `C73_volume` | `Props_Voronoi3.v` | R3 |
| C74 | `C74_mutual` | `Props_Voronoi3.v` | R3 |
| C75 | `C75_empty_spheres` | `Props_HaloDelaunay3.v` | closed |
| C75 | `C75_any_coordinates` | `Props_HaloDelaunay3.v` | closed |
| C75 | `C75_ranks_agree` | `Props_HaloDelaunay3.v` | closed |
| C75 | `C75_single_rank` | `Props_HaloDelaunay3.v` | closed |
| C75 | `C75_exact_spheres` | `Props_HaloDelaunay3.v` | closed |
| C76 | `C76_cube` | `Props_VoronoiGrid3.v` | closed |
| C76 | `C76_whole_cells` | `Props_VoronoiGrid3.v` | R3 |
| C77 | `C77_sweep_assumptions_met` | `Props_VoronoiGrid3.v` | R3 |
| C77 | `C77_two_sides` | `Props_VoronoiGrid3.v` | R3 |
| C77 | `C77_sweeps_finish` | `Props_VoronoiGrid3.v` | R3 |
| C77 | `C77_distinct` | `Props_VoronoiGrid3.v` | closed |
| C78 | `C78_infinite_lattice` | `Props_VoronoiGrid3.v` | closed |
| C79 | `C79_passed_ranks_agree` | `Props_Deadlock.v` | closed |
| C79 | `C79_no_false_alarm` | `Props_Deadlock.v` | closed |
| C79 | `C79_no_false_alarm_voronoi` | `Props_Deadlock.v` | R3 |
| C79 | `C79_ends` | `Props_Deadlock.v` | closed |
| C79 | `C79_all_pass` | `Props_Deadlock.v` | closed |
| C79 | `C79_idle_rank_hangs` | `Props_Deadlock.v` | closed |
| C79 | `C79_returns_on_every_grid_refuted` | `Props_Deadlock.v` | closed |
| C79 | `C79_finds_every_deadlock_refuted` | `Props_Deadlock.v` | closed |
| C80 | `C80_physical_value` | `Props_Units.v` | closed |
| C80 | `C80_wrong_dimension` | `Props_Units.v` | closed |
| C80 | `C80_no_cosmology` | `Props_Units.v` | closed |
| C80 | `C80_zero_factor` | `Props_Units.v` | closed |
| C81 | `C81_round_trip` | `Props_Units.v` | closed |
| C81 | `C81_remap_comoving` | `Props_Units.v` | closed |
| C81 | `C81_comoving_read_back_refuted` | `Props_Units.v` | closed |
| C81 | `C81_remap_without_cosmology_refuted` | `Props_Units.v` | closed |
| C82 | `C82_numbers` | `Props_Directions.v` | closed |
| C82 | `C82_unit_and_distinct` | `Props_Directions.v` | closed |
| C82 | `C82_isotropic` | `Props_Directions.v` | closed |
| C82 | `C82_plane_unit` | `Props_Directions.v` | R3 |
| C82 | `C82_plane_distinct` | `Props_Directions.v` | R3 |
| C82 | `C82_plane_balanced` | `Props_Directions.v` | R3 |
| C82 | `C82_explicit` | `Props_Directions.v` | R3 |
| C83 | `C83_distribution` | `Props_TimeSeries.v` | closed |
| C83 | `C83_means` | `Props_TimeSeries.v` | closed |
| C83 | `C83_other_means` | `Props_TimeSeries.v` | closed |
| C83 | `C83_between` | `Props_TimeSeries.v` | closed |
| C83 | `C83_rates_refuted` | `Props_TimeSeries.v` | closed |
| C83 | `C83_levels` | `Props_TimeSeries.v` | closed |
| C83 | `C83_number_at_level_refuted` | `Props_TimeSeries.v` | closed |
| C84 | `C84_schedules` | `Props_Performance.v` | closed |
| C84 | `C84_labels` | `Props_Performance.v` | closed |
| C84 | `C84_order` | `Props_Performance.v` | closed |
| C84 | `C84_stages` | `Props_Performance.v` | closed |
| C84 | `C84_times` | `Props_Performance.v` | closed |
| C84 | `C84_statistics` | `Props_Performance.v` | closed |
| C84 | `C84_total` | `Props_Performance.v` | closed |
| C84 | `C84_numbers` | `Props_Performance.v` | closed |
| C84 | `C84_number_of_particles_refuted` | `Props_Performance.v` | closed |
| C85 | `C85_panics` | `Props_Plugins.v` | closed |
| C85 | `C85_every_call` | `Props_Plugins.v` | closed |
| C85 | `C85_once` | `Props_Plugins.v` | closed |
| C85 | `C85_once_refuted` | `Props_Plugins.v` | closed |
| C85 | `C85_well_ordered` | `Props_Plugins.v` | closed |
| C85 | `C85_sections` | `Props_Plugins.v` | closed |
| C86 | `C86_filter` | `Props_Float.v` | R4 |
| C86 | `C86_whole_test` | `Props_Float.v` | R4 |
| C86 | `C86_exact_refuted` | `Props_Float.v` | R4 |
| C87 | `C87_same_as_exact` | `Props_Float.v` | R4 |
| C87 | `C87_geometry` | `Props_Float.v` | R4 |
| C88 | `C88_range` | `Props_Float.v` | R4 |
| C88 | `C88_order` | `Props_Float.v` | R4 |
| C88 | `C88_box` | `Props_Float.v` | R4 |
| C88 | `C88_distinct_refuted` | `Props_Float.v` | R4 |
| C89 | `C89_wrap` | `Props_Float.v` | R4 |
| C89 | `C89_nearest_image` | `Props_Float.v` | R4 |
| C89 | `C89_half_open_refuted` | `Props_Float.v` | R4 |
| C90 | `C90_positions` | `Props_Float.v` | R4 |
| C90 | `C90_keys_3d` | `Props_Float.v` | R4 |
| C90 | `C90_keys_2d` | `Props_Float.v` | R4 |
| C90 | `C90_on_grid_refuted` | `Props_Float.v` | R4 |
| C91 | `C91_choice` | `Props_FloatFlip.v` | R4 |
| C91 | `C91_inside_refuted` | `Props_FloatFlip.v` | R4 |
| C91 | `C91_outside_refuted` | `Props_FloatFlip.v` | R4 |
| C92 | `C92_contains` | `Props_FloatFlip.v` | R4 |
| C92 | `C92_inside_refuted` | `Props_FloatFlip.v` | R4 |
| C92 | `C92_outside_refuted` | `Props_FloatFlip.v` | R4 |
| C93 | `C93_circle` | `Props_FloatFlip.v` | R4 |
| C93 | `C93_circle_refuted` | `Props_FloatFlip.v` | R4 |
| C94 | `C94_mirrors` | `Props_Sync.v` | closed |
| C94 | `C94_panics` | `Props_Sync.v` | closed |
| C94 | `C94_one_rank` | `Props_Sync.v` | closed |
| C94 | `C94_keys` | `Props_Sync.v` | closed |
| C94 | `C94_second_send_refuted` | `Props_Sync.v` | closed |
| C95 | `C95_start_up` | `Props_StartUp.v` | closed |
| C95 | `C95_energy_to_temperature_and_back` | `Props_StartUp.v` | closed |
| C95 | `C95_temperature_to_energy_and_back` | `Props_StartUp.v` | closed |
| C95 | `C95_fraction_within_bounds_refuted` | `Props_StartUp.v` | closed |
| C96 | `C96_sources` | `Props_StarSources.v` | closed |
| C96 | `C96_panics` | `Props_StarSources.v` | closed |
| C96 | `C96_missing_data_noticed_refuted` | `Props_StarSources.v` | closed |
| C97 | `C97_recombination` | `Props_HydrogenRates.v` | R4 |
| C97 | `C97_recombination_cooling` | `Props_HydrogenRates.v` | R4 |
| C97 | `C97_ionization` | `Props_HydrogenRates.v` | R4 |
| C97 | `C97_ionization_cooling` | `Props_HydrogenRates.v` | R4 |
| C97 | `C97_excitation_cooling` | `Props_HydrogenRates.v` | R4 |
| C97 | `C97_bremsstrahlung_cooling` | `Props_HydrogenRates.v` | R4 |
| C97 | `C97_compton_cooling` | `Props_HydrogenRates.v` | R4 |
| C97 | `C97_cooling` | `Props_HydrogenRates.v` | R4 |
| C97 | `C97_cooling_nonnegative` | `Props_HydrogenRates.v` | R4 |
| C98 | `C98_temperature` | `Props_HydrogenRates.v` | R4 |
| C98 | `C98_fraction` | `Props_HydrogenRates.v` | R4 |
| C98 | `C98_whole_balance_refuted` | `Props_HydrogenRates.v` | R4 |
| C99 | `C99_photons` | `Props_HydrogenRates.v` | R3 |
| C99 | `C99_ionized_and_heated` | `Props_HydrogenRates.v` | R3 |
| C99 | `C99_bounds` | `Props_HydrogenRates.v` | R4 |
| C99 | `C99_reported_fraction` | `Props_HydrogenRates.v` | R4 |
| C99 | `C99_reported_heating` | `Props_HydrogenRates.v` | R4 |
| C99 | `C99_below_threshold_refuted` | `Props_HydrogenRates.v` | R3 |
| C100 | `C100_ends_2d` | `Props_HaloEnd.v` | closed |
| C100 | `C100_ends_3d` | `Props_HaloEnd.v` | closed |
| C100 | `C100_two_images_2d` | `Props_HaloEnd.v` | closed |
| C100 | `C100_two_images_3d` | `Props_HaloEnd.v` | closed |
| C101 | `C101_step_bounds` | `Props_FloatLevel.v` | R4 |
| C101 | `C101_step_not_longer_refuted` | `Props_FloatLevel.v` | R4 |
| C101 | `C101_extremes` | `Props_FloatLevel.v` | R4 |
| C102 | `C102_paths_distinct` | `Props_OutputNames.v` | closed |
| C102 | `C102_logs_distinct` | `Props_OutputNames.v` | closed |
| C102 | `C102_files_sorted` | `Props_OutputNames.v` | closed |
| C102 | `C102_logs_sorted` | `Props_OutputNames.v` | closed |
| C102 | `C102_snapshots_sorted` | `Props_OutputNames.v` | closed |
| C102 | `C102_all_snapshots_sorted_refuted` | `Props_OutputNames.v` | closed |
| C103 | `C103_files` | `Props_InputListing.v` | closed |
| C103 | `C103_same_order` | `Props_InputListing.v` | closed |
| C103 | `C103_order_irrelevant` | `Props_InputListing.v` | closed |
| C103 | `C103_rows_together` | `Props_InputListing.v` | closed |
| C103 | `C103_any_order_refuted` | `Props_InputListing.v` | closed |
| C104 | `C104_selection` | `Props_OutputFields.v` | closed |
| C104 | `C104_created_as_written` | `Props_OutputFields.v` | closed |
| C104 | `C104_reported` | `Props_OutputFields.v` | closed |
| C104 | `C104_readable` | `Props_OutputFields.v` | closed |
| C104 | `C104_documented_values_refuted` | `Props_OutputFields.v` | closed |
| C105 | `C105_time_error` | `Props_FloatTime.v` | R4 |
| C105 | `C105_time_grows` | `Props_FloatTime.v` | R4 |
| C105 | `C105_number_of_steps` | `Props_FloatTime.v` | R4 |
| C105 | `C105_never_ends` | `Props_FloatTime.v` | closed |
| C105 | `C105_exact_number_refuted` | `Props_FloatTime.v` | R4 |
| C105 | `C105_snapshot_due` | `Props_FloatTime.v` | R4 |
| C106 | `C106_incoming_error` | `Props_FloatRate.v` | R4 |
| C106 | `C106_own_not_negative` | `Props_FloatRate.v` | R4 |
| C106 | `C106_not_negative_refuted` | `Props_FloatRate.v` | R4 |
| C106 | `C106_relative_error_refuted` | `Props_FloatRate.v` | R4 |
| C106 | `C106_shares` | `Props_FloatRate.v` | R4 |
| C106 | `C106_outgoing` | `Props_FloatRate.v` | R4 |
| C106 | `C106_rate_of_site` | `Props_FloatRate.v` | R4 |
| C106 | `C106_not_a_number` | `Props_FloatRate.v` | R4 |
| C107 | `C107_stays_valid` | `Props_FloatChem.v` | R4 |
| C107 | `C107_repaired` | `Props_FloatChem.v` | R4 |
| C107 | `C107_repaired_with_floor_refuted` | `Props_FloatChem.v` | R4 |
| C107 | `C107_accepted_change` | `Props_FloatChem.v` | R4 |
| C107 | `C107_not_a_number` | `Props_FloatChem.v` | R4 |
