(** C76, C77, C78: the grids that the ranks make from their Voronoi cells in space are one grid, on which every sweep finishes, and
    which is that of the particles repeated without end. *)
From Coq Require Import List Arith ZArith QArith Qcanon Lia Permutation Reals.
From Verif Require Geometry_Model Sweep_Model Sweep_Spec Sweep_Live2 Props_HaloDelaunay3.
From Verif Require Import Geometry_Spec Box_Model Box_Spec Tree_Model Delaunay_Model DelaunayGlobal3_Spec Halo_Model Halo_Spec HaloGeo_Model HaloGeo_Spec
  HaloDelaunay3_Spec HaloDelaunay3_Model Voronoi3_Model Voronoi3_Spec VoronoiGrid_Spec VoronoiGrid3_Model VoronoiGrid3_Spec VoronoiGrid3_Proofs VoronoiGridWhole3_Proofs VoronoiGridFinal3_Proofs
  VoronoiLattice3_Proofs.
Import ListNotations.
Local Open Scope nat_scope.

(** The theorems below are about any initial tetrahedron and any coordinates that keep angles. Those of the code have these properties
    if the box is a cube. *)
Theorem C76_cube : forall box, proper3 box ->
  (x3 (max3 box) - x3 (min3 box) == y3 (max3 box) - y3 (min3 box))%Q /\ (x3 (max3 box) - x3 (min3 box) == z3 (max3 box) - z3 (min3 box))%Q ->
  similar3 (box_remap3 box) /\ starts_with3 (box_remap3 box) (box_outer3 box) /\ far_outer3 box (box_outer3 box).
Proof. intros box P C. exact (conj (box_similar3 box P C) (conj (box_starts3 box P) (box_far3 box P))). Qed.
Print Assumptions C76_cube.

(** C76: the construction of the grid of a rank does not panic. Its cells are those of the local particles, in the order of
    insertion. The cell of a particle is the cell of that particle among all particles, all images and the corners of the initial
    tetrahedron: one face for every neighbour, with the name that this rank has for the neighbour, and the
    volume. The haloes are exactly the remote particles to which a face of a local cell leads. *)
Theorem C76_whole_cells : forall ranks cfg build_fuel search_fuel pop box particles order circumcircle characteristic_length chunk_size,
  distributed3 ranks box particles -> max_depth cfg < build_fuel -> forall remap outer, similar3 remap -> starts_with3 remap outer ->
  covers_spheres3 to_point3 circumcircle -> forall fuel w w',
  starts_in_order3 ranks pop particles order remap outer w ->
  run3 ranks cfg build_fuel search_fuel pop box particles remap circumcircle characteristic_length chunk_size fuel w = Some (Done w') ->
  forall hash_set, iterates_set hash_set ->
  forall r s, nth_error w' r = Some s -> forall periodic,
  exists g, construct_grid3 hash_set (order r) s periodic = Some g /\ map fst (local_cells3 g) = map fst (order r) /\
    (forall id c, In (id, c) (local_cells3 g) -> exists pos, In (id, pos) (particles r) /\ whole_cell3 box particles outer periodic r pos c) /\
    (forall q x, In (q, x) (halo_ids3 g) <-> exists e f, In e (local_cells3 g) /\ In f (neighbours3 (snd e)) /\
       (connection3 f = Remote wrap3 x q \/ exists wr, connection3 f = RemotePeriodic wrap3 x q wr)).
Proof. exact grid_whole. Qed.
Print Assumptions C76_whole_cells.

(** C77: what the theorems about the sweep (C09 to C15) assume of a grid is true of the grids of all ranks taken together, also with
    periodic boundaries. *)
Theorem C77_sweep_assumptions_met : forall ranks cfg build_fuel search_fuel pop box particles order circumcircle characteristic_length chunk_size,
  distributed3 ranks box particles -> max_depth cfg < build_fuel -> forall remap outer, similar3 remap -> starts_with3 remap outer ->
  covers_spheres3 to_point3 circumcircle -> forall fuel w w',
  starts_in_order3 ranks pop particles order remap outer w ->
  run3 ranks cfg build_fuel search_fuel pop box particles remap circumcircle characteristic_length chunk_size fuel w = Some (Done w') ->
  forall hash_set, iterates_set hash_set -> forall periodic world,
  (forall r s, nth_error w' r = Some s -> construct_grid3 hash_set (order r) s periodic = Some (world r)) ->
  distinct_images3 box particles ->
  (periodic = true -> forall r, Forall (fun p => Box_Spec.in_box3 box (snd p)) (particles r)) ->
  (periodic = true -> far_outer3 box outer) ->
  forall round dirs batch source lev sweeps resp chemup, (forall x, (0 < x)%R -> (0 < round x)%Qc) ->
  let G := sweep_config3 round world ranks dirs batch source lev sweeps resp chemup in
  Sweep_Spec.consistent G /\ Sweep_Spec.acyclic G /\ (periodic = false -> Sweep_Spec.non_periodic G).
Proof. exact voronoi_sweep3. Qed.
Print Assumptions C77_sweep_assumptions_met.

(** The faces have positive areas, and every face has one on the other side: the other cell, possibly on another rank, sees this one
    through a face with the same area and the opposite direction, across the boundary of the box or not. *)
Theorem C77_two_sides : forall ranks cfg build_fuel search_fuel pop box particles order circumcircle characteristic_length chunk_size,
  distributed3 ranks box particles -> max_depth cfg < build_fuel -> forall remap outer, similar3 remap -> starts_with3 remap outer ->
  covers_spheres3 to_point3 circumcircle -> forall fuel w w',
  starts_in_order3 ranks pop particles order remap outer w ->
  run3 ranks cfg build_fuel search_fuel pop box particles remap circumcircle characteristic_length chunk_size fuel w = Some (Done w') ->
  forall hash_set, iterates_set hash_set -> forall periodic world,
  (forall r s, nth_error w' r = Some s -> construct_grid3 hash_set (order r) s periodic = Some (world r)) ->
  distinct_images3 box particles ->
  (periodic = true -> forall r, Forall (fun p => Box_Spec.in_box3 box (snd p)) (particles r)) ->
  (periodic = true -> far_outer3 box outer) ->
  forall round dirs batch source lev sweeps resp chemup, (forall x, (0 < x)%R -> (0 < round x)%Qc) ->
  let G := sweep_config3 round world ranks dirs batch source lev sweeps resp chemup in
  (forall c f, In c (Sweep_Model.cells G) -> In f (Sweep_Model.faces G c) -> (0 < Sweep_Model.f_area f)%Qc) /\
  forall c p f across, In c (Sweep_Model.cells G) -> In f (Sweep_Model.faces G c) -> Sweep_Model.f_nb f = seen_from (fst c) p across ->
  exists g, In g (Sweep_Model.faces G p) /\ Sweep_Model.f_nb g = seen_from (fst p) c across /\ Sweep_Model.f_area g = Sweep_Model.f_area f /\
    forall d, Sweep_Model.f_dot g d = (- Sweep_Model.f_dot f d)%Qc.
Proof. exact voronoi_mutual3. Qed.
Print Assumptions C77_two_sides.

(** In particular, under every fair schedule all ranks finish all sweeps. *)
Theorem C77_sweeps_finish : forall ranks cfg build_fuel search_fuel pop box particles order circumcircle characteristic_length chunk_size,
  distributed3 ranks box particles -> max_depth cfg < build_fuel -> forall remap outer, similar3 remap -> starts_with3 remap outer ->
  covers_spheres3 to_point3 circumcircle -> forall fuel w w',
  starts_in_order3 ranks pop particles order remap outer w ->
  run3 ranks cfg build_fuel search_fuel pop box particles remap circumcircle characteristic_length chunk_size fuel w = Some (Done w') ->
  forall hash_set, iterates_set hash_set -> forall periodic world,
  (forall r s, nth_error w' r = Some s -> construct_grid3 hash_set (order r) s periodic = Some (world r)) ->
  distinct_images3 box particles ->
  (periodic = true -> forall r, Forall (fun p => Box_Spec.in_box3 box (snd p)) (particles r)) ->
  (periodic = true -> far_outer3 box outer) ->
  forall round dirs batch source lev sweeps resp chemup, (forall x, (0 < x)%R -> (0 < round x)%Qc) ->
  let G := sweep_config3 round world ranks dirs batch source lev sweeps resp chemup in
  forall i o p x sched, Sweep_Live2.fair G sched ->
  exists S0 len S, Sweep_Model.init G i o p x = Some S0 /\ Sweep_Model.exec G S0 (map sched (seq 0 len)) = Some S /\ Sweep_Model.finished G S.
Proof. exact voronoi_sweeps_finish3. Qed.
Print Assumptions C77_sweeps_finish.

(** Particles at different positions in the half-open box satisfy the assumption on the images. *)
Theorem C77_distinct : forall ranks box particles, distributed3 ranks box particles -> (forall r, Forall (fun p => Box_Spec.in_box3 box (snd p)) (particles r)) ->
  (forall r x p r' x' p', In (x, p) (particles r) -> In (x', p') (particles r') -> same_position3 p p' -> r = r' /\ x = x') ->
  distinct_images3 box particles.
Proof. exact distinct_half_open3. Qed.
Print Assumptions C77_distinct.

(** C78: the images next to the box are enough. The cell of a local particle is bounded, and a point is in it exactly when it is
    nearer to the particle than to any other particle or image, however far away. *)
Theorem C78_infinite_lattice : forall ranks cfg build_fuel search_fuel pop box particles order circumcircle characteristic_length chunk_size,
  distributed3 ranks box particles -> max_depth cfg < build_fuel -> forall remap outer, similar3 remap -> starts_with3 remap outer ->
  covers_spheres3 to_point3 circumcircle -> forall fuel w w',
  starts_in_order3 ranks pop particles order remap outer w ->
  run3 ranks cfg build_fuel search_fuel pop box particles remap circumcircle characteristic_length chunk_size fuel w = Some (Done w') ->
  forall hash_set, iterates_set hash_set ->
  (forall r, Forall (fun p => Box_Spec.in_box3 box (snd p)) (particles r)) -> far_outer3 box outer ->
  forall r s, nth_error w' r = Some s ->
  exists cells, rank_cells3 hash_set (order r) s = Some cells /\ forall k id pos, nth_error (order r) k = Some (id, pos) ->
    exists c, nth_error cells k = Some c /\ index3 c = Local wrap3 id /\ is_infinite3 c = false /\
      forall x, cell_contains3 c x = true <->
        forall y, lattice3 box particles y -> (0 < dist2_3 y (to_point3 pos))%Q -> (dist2_3 x (to_point3 pos) < dist2_3 x y)%Q.
Proof. exact periodic_cells3. Qed.
Print Assumptions C78_infinite_lattice.

(** The situation of the example of C75 (two ranks, three particles) satisfies all assumptions. *)
Import Props_HaloDelaunay3.
Example C76_example_similar : similar3 to_point3 /\ starts_with3 to_point3 ex_outer.
Proof.
  split; [|exact C75_example_outer]. exists (fun p => p), 1%Q, 0%Q, 0%Q, 0%Q. split; [reflexivity|]. split; [reflexivity|]. intro p. repeat split; ring.
Qed.
Example C76_example_half_open : forall r, Forall (fun p => Box_Spec.in_box3 ex_box (snd p)) (ex_particles r).
Proof. intros [|[|r]]; cbn; repeat constructor; cbn; discriminate. Qed.
Example C77_example_distinct : distinct_images3 ex_box ex_particles.
Proof.
  apply (C77_distinct 2 ex_box ex_particles C75_example_distributed C76_example_half_open).
  intros r x p r' x' p' H H' [E1 _].
  destruct r as [|[|r]]; cbn [ex_particles In] in H; [| |contradiction];
  destruct r' as [|[|r']]; cbn [ex_particles In] in H'; try contradiction;
  repeat match type of H with _ \/ _ => destruct H as [H|H] end; try contradiction; injection H as <- <-;
  repeat match type of H' with _ \/ _ => destruct H' as [H'|H'] end; try contradiction; injection H' as <- <-;
  first [discriminate E1|auto].
Qed.
Example C76_example_starts : forall s0 w, all_encompassing_3d = Some s0 -> map_outcome (ex_rank s0) [0; 1] = Done w ->
  starts_in_order3 2 ex_pop ex_particles ex_particles to_point3 ex_outer w.
Proof.
  intros s0 w E0 H. cbn [map_outcome] in H. destruct (ex_rank s0 0) as [sa|] eqn:Ea; cbn [andthen] in H; [|discriminate].
  destruct (ex_rank s0 1) as [sb|] eqn:Eb; cbn [andthen] in H; [|discriminate]. injection H as <-.
  split; [reflexivity|]. split; [intro; apply Permutation_refl|]. intros r s Hr. exists s0. split; [exact E0|]. unfold ex_rank in *.
  destruct r as [|[|r]]; cbn [nth_error] in Hr; [| |destruct r; discriminate]; injection Hr as <-; assumption.
Qed.
Example C76_example_hash : iterates_set (nodup Nat.eq_dec).
Proof. intro l. split; [apply NoDup_nodup|]. intro x. apply nodup_In. Qed.
(* the theorems applied to this situation; the computation of the triangulations succeeds by C75_example_run *)
Example C77_example : forall s0 w w', all_encompassing_3d = Some s0 -> map_outcome (ex_rank s0) [0; 1] = Done w ->
  run3 2 ex_cfg 20 60 ex_pop ex_box ex_particles to_point3 ex_circumcircle 400 100 20 w = Some (Done w') ->
  exists world, (forall r s, nth_error w' r = Some s -> construct_grid3 (nodup Nat.eq_dec) (ex_particles r) s false = Some (world r)) /\
  forall dirs batch source lev sweeps resp chemup, let G := sweep_config3 (fun _ => 1%Qc) world 2 dirs batch source lev sweeps resp chemup in
  Sweep_Spec.consistent G /\ Sweep_Spec.acyclic G.
Proof.
  intros s0 w w' E0 Ew Er. pose proof (C76_example_starts s0 w E0 Ew) as ST. assert (D : max_depth ex_cfg < 20) by (cbn; lia).
  destruct C76_example_similar as [SI SW].
  set (world := fun r => match nth_error w' r with
                         | Some s => match construct_grid3 (nodup Nat.eq_dec) (ex_particles r) s false with Some g => g | None => RankGrid3 [] [] end
                         | None => RankGrid3 [] [] end).
  assert (X : forall r s, nth_error w' r = Some s -> construct_grid3 (nodup Nat.eq_dec) (ex_particles r) s false = Some (world r)).
  { intros r s H. destruct (C76_whole_cells 2 ex_cfg 20 60 ex_pop ex_box ex_particles ex_particles ex_circumcircle 400 100 C75_example_distributed D to_point3 ex_outer SI SW
      C75_example_spheres 20 w w' ST Er _ C76_example_hash r s H false) as [g [G1 _]].
    unfold world. now rewrite H, G1. }
  exists world. split; [exact X|]. intros dirs batch source lev sweeps resp chemup.
  pose proof (C77_sweep_assumptions_met 2 ex_cfg 20 60 ex_pop ex_box ex_particles ex_particles ex_circumcircle 400 100 C75_example_distributed D to_point3 ex_outer SI SW
    C75_example_spheres 20 w w' ST Er _ C76_example_hash false world X C77_example_distinct ltac:(discriminate) ltac:(discriminate)
    (fun _ => 1%Qc) dirs batch source lev sweeps resp chemup ltac:(intros; reflexivity)) as [A [B _]].
  split; [exact A|exact B].
Qed.
