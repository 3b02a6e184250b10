(** C65, C66, C67: the grids that the ranks make from their Voronoi cells are one grid, on which every sweep finishes, and which
    is that of the particles repeated without end. *)
From Coq Require Import List Arith ZArith QArith Qcanon Lia Permutation.
From Verif Require Geometry_Model Sweep_Model Sweep_Spec Sweep_Live2 Props_HaloDelaunay.
From Verif Require Import Geometry_Spec Box_Model Box_Spec Tree_Model Delaunay_Model DelaunayGlobal_Spec Halo_Model Halo_Spec HaloGeo_Model HaloGeo_Spec
  HaloDelaunay_Spec HaloDelaunay_Model Voronoi_Model Voronoi_Spec VoronoiGrid_Model VoronoiGrid_Spec VoronoiGridWhole_Proofs VoronoiGridFinal_Proofs VoronoiLattice_Proofs.
Import ListNotations.
Local Open Scope nat_scope.

(** C65: the construction of the grid of a rank does not panic. Its cells are those of the local particles, in the order of
    insertion. The cell of a particle is the cell of that particle in the triangulation of all particles and
    images: one face for every neighbour, with the name that this rank has for the neighbour, and the
    volume. The haloes are exactly the remote particles to which a face of a local cell leads. *)
Theorem C65_whole_cells : forall ranks cfg build_fuel search_fuel pop box particles order circumcircle characteristic_length chunk_size,
  distributed2 ranks box particles -> max_depth cfg < build_fuel -> forall fuel w w',
  starts_in_order2 ranks pop particles order (box_remap2 box) (box_outer2 box) w ->
  run2 ranks cfg build_fuel search_fuel pop box particles (box_remap2 box) circumcircle characteristic_length chunk_size fuel w = Some (Done w') ->
  (x2 (max2 box) - x2 (min2 box) == y2 (max2 box) - y2 (min2 box))%Q -> covers_circles2 to_point2 circumcircle ->
  forall pop' l whole, all_images2 box particles l -> whole2 box pop' l = Some whole -> distinct_images2 box particles ->
  forall r s, nth_error w' r = Some s -> forall periodic,
  exists g, construct_grid (order r) s periodic = Some g /\ map fst (local_cells g) = map fst (order r) /\
    (forall id pos c v x, In (id, c) (local_cells g) -> In (id, pos) (particles r) -> nth_error (whole_points box l) v = Some x -> same_position pos x ->
       whole_cell box particles l whole periodic r v c) /\
    (forall q x, In (q, x) (halo_ids g) <-> exists e f, In e (local_cells g) /\ In f (neighbours (snd e)) /\
       (connection f = Remote wrap2 x q \/ exists wr, connection f = RemotePeriodic wrap2 x q wr)).
Proof. exact grid_here. Qed.
Print Assumptions C65_whole_cells.

(** C66: what the theorems about the sweep (C09 to C15) assume of a grid is true of the grids of all ranks taken together, also with
    periodic boundaries. *)
Theorem C66_sweep_assumptions_met : forall ranks cfg build_fuel search_fuel pop box particles order circumcircle characteristic_length chunk_size pop' l whole fuel w w' periodic world,
  distributed2 ranks box particles -> max_depth cfg < build_fuel ->
  (x2 (max2 box) - x2 (min2 box) == y2 (max2 box) - y2 (min2 box))%Q -> covers_circles2 to_point2 circumcircle ->
  all_images2 box particles l -> distinct_images2 box particles -> whole2 box pop' l = Some whole ->
  starts_in_order2 ranks pop particles order (box_remap2 box) (box_outer2 box) w ->
  run2 ranks cfg build_fuel search_fuel pop box particles (box_remap2 box) circumcircle characteristic_length chunk_size fuel w = Some (Done w') ->
  (periodic = true -> forall r, Forall (fun p => in_box2 box (snd p)) (particles r)) ->
  (forall r s, nth_error w' r = Some s -> construct_grid (order r) s periodic = Some (world r)) ->
  forall root dirs batch source lev sweeps resp chemup, (forall x, (0 < x)%Qc -> (0 < root x)%Qc) ->
  let G := sweep_config root world ranks dirs batch source lev sweeps resp chemup in
  Sweep_Spec.consistent G /\ Sweep_Spec.acyclic G /\ (periodic = false -> Sweep_Spec.non_periodic G).
Proof. exact voronoi_sweep. Qed.
Print Assumptions C66_sweep_assumptions_met.

(** The faces have positive areas, and every face has one on the other side: the other cell, possibly on another rank, sees this one
    through a face with the same area and the opposite direction, across the boundary of the box or not. *)
Theorem C66_two_sides : forall ranks cfg build_fuel search_fuel pop box particles order circumcircle characteristic_length chunk_size pop' l whole fuel w w' periodic world,
  distributed2 ranks box particles -> max_depth cfg < build_fuel ->
  (x2 (max2 box) - x2 (min2 box) == y2 (max2 box) - y2 (min2 box))%Q -> covers_circles2 to_point2 circumcircle ->
  all_images2 box particles l -> distinct_images2 box particles -> whole2 box pop' l = Some whole ->
  starts_in_order2 ranks pop particles order (box_remap2 box) (box_outer2 box) w ->
  run2 ranks cfg build_fuel search_fuel pop box particles (box_remap2 box) circumcircle characteristic_length chunk_size fuel w = Some (Done w') ->
  (periodic = true -> forall r, Forall (fun p => in_box2 box (snd p)) (particles r)) ->
  (forall r s, nth_error w' r = Some s -> construct_grid (order r) s periodic = Some (world r)) ->
  forall root dirs batch source lev sweeps resp chemup, (forall x, (0 < x)%Qc -> (0 < root x)%Qc) ->
  let G := sweep_config root world ranks dirs batch source lev sweeps resp chemup in
  (forall c f, In c (Sweep_Model.cells G) -> In f (Sweep_Model.faces G c) -> (0 < Sweep_Model.f_area f)%Qc) /\
  forall c p f across, In c (Sweep_Model.cells G) -> In f (Sweep_Model.faces G c) -> Sweep_Model.f_nb f = seen_from (fst c) p across ->
  exists g, In g (Sweep_Model.faces G p) /\ Sweep_Model.f_nb g = seen_from (fst p) c across /\ Sweep_Model.f_area g = Sweep_Model.f_area f /\
    forall d, Sweep_Model.f_dot g d = (- Sweep_Model.f_dot f d)%Qc.
Proof. exact voronoi_mutual. Qed.
Print Assumptions C66_two_sides.

(** In particular, under every fair schedule all ranks finish all sweeps. *)
Theorem C66_sweeps_finish : forall ranks cfg build_fuel search_fuel pop box particles order circumcircle characteristic_length chunk_size pop' l whole fuel w w' periodic world,
  distributed2 ranks box particles -> max_depth cfg < build_fuel ->
  (x2 (max2 box) - x2 (min2 box) == y2 (max2 box) - y2 (min2 box))%Q -> covers_circles2 to_point2 circumcircle ->
  all_images2 box particles l -> distinct_images2 box particles -> whole2 box pop' l = Some whole ->
  starts_in_order2 ranks pop particles order (box_remap2 box) (box_outer2 box) w ->
  run2 ranks cfg build_fuel search_fuel pop box particles (box_remap2 box) circumcircle characteristic_length chunk_size fuel w = Some (Done w') ->
  (periodic = true -> forall r, Forall (fun p => in_box2 box (snd p)) (particles r)) ->
  (forall r s, nth_error w' r = Some s -> construct_grid (order r) s periodic = Some (world r)) ->
  forall root dirs batch source lev sweeps resp chemup, (forall x, (0 < x)%Qc -> (0 < root x)%Qc) ->
  let G := sweep_config root world ranks dirs batch source lev sweeps resp chemup in
  forall i o p x sched, Sweep_Live2.fair G sched ->
  exists S0 len S, Sweep_Model.init G i o p x = Some S0 /\ Sweep_Model.exec G S0 (map sched (seq 0 len)) = Some S /\ Sweep_Model.finished G S.
Proof. exact voronoi_sweeps_finish. Qed.
Print Assumptions C66_sweeps_finish.

(** C67: the images next to the box are enough. The cell of a local particle is bounded, and a point is in it exactly when no
    particle and no image, however far away, is nearer than the particle. *)
Theorem C67_infinite_lattice : forall ranks cfg build_fuel search_fuel pop box particles order circumcircle characteristic_length chunk_size pop' l whole fuel w w',
  distributed2 ranks box particles -> max_depth cfg < build_fuel ->
  (x2 (max2 box) - x2 (min2 box) == y2 (max2 box) - y2 (min2 box))%Q -> covers_circles2 to_point2 circumcircle ->
  all_images2 box particles l -> whole2 box pop' l = Some whole -> (forall r, Forall (fun p => in_box2 box (snd p)) (particles r)) ->
  starts_in_order2 ranks pop particles order (box_remap2 box) (box_outer2 box) w ->
  run2 ranks cfg build_fuel search_fuel pop box particles (box_remap2 box) circumcircle characteristic_length chunk_size fuel w = Some (Done w') ->
  forall r s, nth_error w' r = Some s ->
  exists cells, rank_cells (order r) s = Some cells /\ forall k id pos, nth_error (order r) k = Some (id, pos) ->
    exists c, nth_error cells k = Some c /\ index c = Local wrap2 id /\ is_infinite c = false /\
      forall x, cell_contains c x = true <-> forall y, lattice2 box particles y -> (dist2_2 x (to_point2 pos) <= dist2_2 x y)%Q.
Proof. exact periodic_cells. Qed.
Print Assumptions C67_infinite_lattice.

(** Particles at different positions in the half-open box satisfy the assumption on the images. *)
Theorem C66_distinct : forall ranks box particles, distributed2 ranks box particles -> (forall r, Forall (fun p => in_box2 box (snd p)) (particles r)) ->
  (forall r x p r' x' p', In (x, p) (particles r) -> In (x', p') (particles r') -> same_position p p' -> r = r' /\ x = x') ->
  distinct_images2 box particles.
Proof. exact distinct_half_open. Qed.
Print Assumptions C66_distinct.

(** The situation of the example of C60 (two ranks, five particles) satisfies all assumptions. *)
Import Props_HaloDelaunay.
Example C65_example_half_open : forall r, Forall (fun p => in_box2 ex_box (snd p)) (ex_particles r).
Proof. intros [|[|r]]; cbn; repeat constructor; cbn; discriminate. Qed.
Example C65_example_distinct : distinct_images2 ex_box ex_particles.
Proof.
  apply (C66_distinct 2 ex_box ex_particles C60_example_distributed C65_example_half_open).
  intros r x p r' x' p' H H' [E1 E2].
  destruct r as [|[|r]]; cbn [ex_particles In] in H; [| |contradiction];
  destruct r' as [|[|r']]; cbn [ex_particles In] in H'; try contradiction;
  repeat match type of H with _ \/ _ => destruct H as [H|H] end; try contradiction; injection H as <- <-;
  repeat match type of H' with _ \/ _ => destruct H' as [H'|H'] end; try contradiction; injection H' as <- <-;
  first [discriminate E1|auto].
Qed.
Example C65_example_starts : forall s0 w, all_encompassing_2d = Some s0 -> map_outcome (ex_rank s0) [0; 1] = Done w ->
  starts_in_order2 2 ex_pop ex_particles ex_particles (box_remap2 ex_box) (box_outer2 ex_box) w.
Proof.
  intros s0 w E0 H. cbn [map_outcome] in H. destruct (ex_rank s0 0) as [sa|] eqn:Ea; cbn [andthen] in H; [|discriminate].
  destruct (ex_rank s0 1) as [sb|] eqn:Eb; cbn [andthen] in H; [|discriminate]. injection H as <-.
  split; [reflexivity|]. split; [intro; apply Permutation_refl|]. intros r s Hr. exists s0. split; [exact E0|]. unfold ex_rank in *.
  destruct r as [|[|r]]; cbn [nth_error] in Hr; [| |destruct r; discriminate]; injection Hr as <-; assumption.
Qed.
(* the grids with periodic boundaries: five cells, whose volumes add up to that of the box *)
Example C65_example_grids :
  match ex_end ex_start with
  | Some (Done [sa; sb]) =>
    match construct_grid (ex_particles 0) sa true, construct_grid (ex_particles 1) sb true with
    | Some ga, Some gb => map fst (local_cells ga) = [0; 1; 2] /\ map fst (local_cells gb) = [0; 1] /\
        (fold_right Qplus 0 (map (fun e => volume (snd e)) (local_cells ga ++ local_cells gb)) == 1600)%Q /\
        existsb (fun e => existsb (fun f => match connection f with RemotePeriodic _ _ _ _ => true | _ => false end) (neighbours (snd e))) (local_cells ga) = true
    | _, _ => False
    end
  | _ => False
  end.
Proof. vm_compute. auto. Qed.
(* the theorems applied to this situation, with the identity for the root; the computations succeed by C60_example_run and C60_example_whole *)
Example C66_example : forall s0 w w' whole, all_encompassing_2d = Some s0 -> map_outcome (ex_rank s0) [0; 1] = Done w ->
  run2 2 ex_cfg 20 40 ex_pop ex_box ex_particles (box_remap2 ex_box) ex_circumcircle 12 4 20 w = Some (Done w') -> whole2 ex_box ex_pop ex_all = Some whole ->
  exists world, (forall r s, nth_error w' r = Some s -> construct_grid (ex_particles r) s true = Some (world r)) /\
  forall dirs batch source lev sweeps resp chemup, let G := sweep_config (fun x => x) world 2 dirs batch source lev sweeps resp chemup in
  Sweep_Spec.consistent G /\ Sweep_Spec.acyclic G.
Proof.
  intros s0 w w' whole E0 Ew Er EW. pose proof (C65_example_starts s0 w E0 Ew) as ST. assert (D : max_depth ex_cfg < 20) by (cbn; lia).
  set (world := fun r => match nth_error w' r with
                         | Some s => match construct_grid (ex_particles r) s true with Some g => g | None => RankGrid [] [] end
                         | None => RankGrid [] [] end).
  assert (X : forall r s, nth_error w' r = Some s -> construct_grid (ex_particles r) s true = Some (world r)).
  { intros r s H. destruct (C65_whole_cells 2 ex_cfg 20 40 ex_pop ex_box ex_particles ex_particles ex_circumcircle 12 4 C60_example_distributed D 20 w w' ST Er
      ltac:(reflexivity) C60_example_circles ex_pop ex_all whole C60_example_images EW C65_example_distinct r s H true) as [g [G1 _]].
    unfold world. now rewrite H, G1. }
  exists world. split; [exact X|]. intros dirs batch source lev sweeps resp chemup.
  pose proof (C66_sweep_assumptions_met 2 ex_cfg 20 40 ex_pop ex_box ex_particles ex_particles ex_circumcircle 12 4 ex_pop ex_all whole 20 w w' true world
    C60_example_distributed D ltac:(reflexivity) C60_example_circles C60_example_images C65_example_distinct EW ST Er (fun _ => C65_example_half_open) X
    (fun x => x) dirs batch source lev sweeps resp chemup (fun x H => H)) as [A [B _]].
  split; [exact A|exact B].
Qed.
