(** Property C100: the import of halo particles ends. *)
From Coq Require Import List Arith ZArith QArith Lia.
From Verif Require Geometry_Model.
From Verif Require Import Box_Model Box_Spec Tree_Model Delaunay_Model Halo_Model Halo_Spec HaloGeo_Model HaloGeo_Spec HaloEnd_Proofs Props_Halo.
Import ListNotations.
Local Open Scope nat_scope.

(** C100. However the particles are distributed over the ranks, there is a number of rounds after which the
    iteration of all ranks is over: no rank is left with an undecided tetra, or the program has ended with an
    error, which is one of two: two images of a particle in one search sphere, or a point that the
    triangulation does not take. The search of the tree is never a reason: with enough fuel, an amount
    that does not depend on the spheres, it always ends. For all numbers of ranks, particles, remappings, orders
    of the point location, functions computing the centre and radius of a circumsphere (the radius may even
    be negative), positive characteristic lengths and positive chunk sizes. *)
Theorem C100_ends_2d : forall ranks cfg build_fuel pop box particles remap circumcircle characteristic_length chunk_size w,
  distributed2 ranks box particles -> max_depth cfg < build_fuel -> (0 < characteristic_length)%Q -> 0 < chunk_size ->
  starts2 ranks pop particles remap w ->
  exists n, forall search_fuel, n <= search_fuel -> exists fuel result,
    run2 ranks cfg build_fuel search_fuel pop box particles remap circumcircle characteristic_length chunk_size fuel w = Some result /\
    forall why, result = Panic why -> why = TwoImages \/ why = InsertFailed.
Proof. exact ends2. Qed.
Print Assumptions C100_ends_2d.
Theorem C100_ends_3d : forall ranks cfg build_fuel pop box particles remap circumcircle characteristic_length chunk_size w,
  distributed3 ranks box particles -> max_depth cfg < build_fuel -> (0 < characteristic_length)%Q -> 0 < chunk_size ->
  starts3 ranks pop particles remap w ->
  exists n, forall search_fuel, n <= search_fuel -> exists fuel result,
    run3 ranks cfg build_fuel search_fuel pop box particles remap circumcircle characteristic_length chunk_size fuel w = Some result /\
    forall why, result = Panic why -> why = TwoImages \/ why = InsertFailed.
Proof. exact ends3. Qed.
Print Assumptions C100_ends_3d.

(** The first of the errors needs a search sphere whose diameter is larger than a side of the box. *)
Theorem C100_two_images_2d : forall box d p, proper2 box ->
  find_wrapped_point vec2 wrap2 (images2 box) closer2 d p = Panic TwoImages ->
  (x2 (max2 box) - x2 (min2 box) < 2 * s_radius vec2 d \/ y2 (max2 box) - y2 (min2 box) < 2 * s_radius vec2 d)%Q.
Proof. exact two_images2. Qed.
Print Assumptions C100_two_images_2d.
Theorem C100_two_images_3d : forall box d p, proper3 box ->
  find_wrapped_point vec3 wrap3 (images3 box) closer3 d p = Panic TwoImages ->
  (x3 (max3 box) - x3 (min3 box) < 2 * s_radius vec3 d \/ y3 (max3 box) - y3 (min3 box) < 2 * s_radius vec3 d \/
   z3 (max3 box) - z3 (min3 box) < 2 * s_radius vec3 d)%Q.
Proof. exact two_images3. Qed.
Print Assumptions C100_two_images_3d.

(** The sixteen particles on two ranks of C38 meet the hypotheses, as do the six particles in space. *)
Example C100_example_begins_2d : match ex2_start with Done _ => true | Panic _ => false end = true.
Proof. vm_compute. reflexivity. Qed.
Example C100_example_2d : exists w, ex2_start = Done w /\ distributed2 2 ex2_box ex2_particles /\ max_depth ex_cfg < 20 /\
  (0 < 3 # 10)%Q /\ 0 < 100 /\ starts2 2 ex_pop ex2_particles ex2_remap w.
Proof.
  assert (S : match ex2_start with Done w => starts2 2 ex_pop ex2_particles ex2_remap w | Panic _ => True end).
  { unfold ex2_start. destruct all_encompassing_2d as [s0|] eqn:E0; [|exact I].
    destruct (map_outcome (ex2_rank s0) [0; 1]) as [w|] eqn:E; [|exact I]. exact (C38_example_starts_2d s0 w E0 E). }
  pose proof C100_example_begins_2d as X. revert S X. generalize ex2_start. intros [w|] S X; [|discriminate]. exists w.
  split; [reflexivity|]. split; [exact C38_example_distributed_2d|]. split; [cbn; lia|]. split; [reflexivity|]. split; [lia|]. exact S.
Qed.
Example C100_example_begins_3d : match ex3_start with Done _ => true | Panic _ => false end = true.
Proof. vm_compute. reflexivity. Qed.
Example C100_example_3d : exists w, ex3_start = Done w /\ distributed3 2 ex3_box ex3_particles /\ max_depth ex_cfg < 20 /\
  (0 < 3 # 10)%Q /\ 0 < 100 /\ starts3 2 ex_pop ex3_particles ex3_remap w.
Proof.
  assert (S : match ex3_start with Done w => starts3 2 ex_pop ex3_particles ex3_remap w | Panic _ => True end).
  { unfold ex3_start. destruct all_encompassing_3d as [s0|] eqn:E0; [|exact I].
    destruct (map_outcome (ex3_rank s0) [0; 1]) as [w|] eqn:E; [|exact I]. exact (C38_example_starts_3d s0 w E0 E). }
  pose proof C100_example_begins_3d as X. revert S X. generalize ex3_start. intros [w|] S X; [|discriminate]. exists w.
  split; [reflexivity|]. split; [exact C38_example_distributed_3d|]. split; [cbn; lia|]. split; [reflexivity|]. split; [lia|]. exact S.
Qed.
(** A sphere of radius 0.6 around the centre of the unit square holds two images of a particle near the left
    side. *)
Example C100_example_two_images :
  find_wrapped_point vec2 wrap2 (images2 ex2_box) closer2 (Search vec2 (V2 (1 # 2) (1 # 2)) (6 # 10)) (ex2_p 5 50) = Panic TwoImages.
Proof. vm_compute. reflexivity. Qed.
