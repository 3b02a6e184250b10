(** C75: the grid in space does not depend on the number of ranks. The tetrahedra around the particles of a rank are
    those with empty circumspheres among all particles of all ranks and all of their periodic images. *)
From Coq Require Import List Arith QArith Qround Lqa Lia Permutation Setoid.
From Verif Require Geometry_Model.
From Verif Require Import Geometry_Spec GeometrySolve_Proofs Box_Model Tree_Model Delaunay_Model DelaunayGeo_Model DelaunayGlobal3_Spec DelaunayUnique3_Proofs
  Halo_Model Halo_Spec HaloGeo_Model HaloGeo_Spec HaloDelaunay3_Spec HaloDelaunay3_Model HaloDelaunay3_Proofs.
Import ListNotations.
Local Open Scope nat_scope.

(** In a cubic box with the initial tetrahedron and the coordinates of the code. *)
Theorem C75_empty_spheres : forall ranks cfg build_fuel search_fuel pop box particles circumcircle characteristic_length chunk_size fuel w w' r s p x,
  distributed3 ranks box particles -> max_depth cfg < build_fuel ->
  (x3 (max3 box) - x3 (min3 box) == y3 (max3 box) - y3 (min3 box))%Q /\ (x3 (max3 box) - x3 (min3 box) == z3 (max3 box) - z3 (min3 box))%Q ->
  covers_spheres3 to_point3 circumcircle ->
  starts_from3 ranks pop particles (box_remap3 box) (box_outer3 box) w ->
  run3 ranks cfg build_fuel search_fuel pop box particles (box_remap3 box) circumcircle characteristic_length chunk_size fuel w = Some (Done w') ->
  nth_error w' r = Some s -> nth_error (kinds vec3 wrap3 s) p = Some Inner -> nth_error (points vec3 wrap3 s) p = Some x ->
  tetras_around to_point3 (site3 box particles (box_outer3 box)) (points vec3 wrap3 s) (tri vec3 wrap3 s) p x.
Proof. exact star_box3. Qed.
Print Assumptions C75_empty_spheres.

(** For any initial tetrahedron and any coordinates in which the search spheres cover the circumspheres. *)
Theorem C75_any_coordinates : forall ranks cfg build_fuel search_fuel pop box particles remap circumcircle characteristic_length chunk_size outer fuel w w' r s p x,
  distributed3 ranks box particles -> max_depth cfg < build_fuel -> length outer = 4 ->
  (0 < volume6 (shape3 (positions3 remap outer) 0 1 2 3))%Q -> (forall p q, same_position3 p q <-> same_point3 (remap p) (remap q)) ->
  covers_spheres3 remap circumcircle -> starts_from3 ranks pop particles remap outer w ->
  run3 ranks cfg build_fuel search_fuel pop box particles remap circumcircle characteristic_length chunk_size fuel w = Some (Done w') ->
  nth_error w' r = Some s -> nth_error (kinds vec3 wrap3 s) p = Some Inner -> nth_error (points vec3 wrap3 s) p = Some x ->
  tetras_around remap (site3 box particles outer) (points vec3 wrap3 s) (tri vec3 wrap3 s) p x.
Proof. intros until x. intros D F four turn RS CC ST RU HR IN EX. exact (star3 ranks cfg build_fuel search_fuel pop box particles remap circumcircle characteristic_length chunk_size outer D F four turn RS CC fuel w w' r s ST RU HR p IN x EX). Qed.
Print Assumptions C75_any_coordinates.

(** Two ranks agree on the tetrahedra that have particles of both ranks as corners. *)
Theorem C75_ranks_agree : forall ranks cfg build_fuel search_fuel pop box particles remap circumcircle characteristic_length chunk_size outer fuel w w' r1 s1 r2 s2 p1 q1 c1 d1 p2,
  distributed3 ranks box particles -> max_depth cfg < build_fuel -> length outer = 4 ->
  (0 < volume6 (shape3 (positions3 remap outer) 0 1 2 3))%Q -> (forall p q, same_position3 p q <-> same_point3 (remap p) (remap q)) ->
  covers_spheres3 remap circumcircle -> starts_from3 ranks pop particles remap outer w ->
  run3 ranks cfg build_fuel search_fuel pop box particles remap circumcircle characteristic_length chunk_size fuel w = Some (Done w') ->
  nth_error w' r1 = Some s1 -> nth_error w' r2 = Some s2 ->
  nth_error (kinds vec3 wrap3 s1) p1 = Some Inner -> nth_error (kinds vec3 wrap3 s2) p2 = Some Inner ->
  let same v u := exists x x', nth_error (points vec3 wrap3 s1) v = Some x /\ nth_error (points vec3 wrap3 s2) u = Some x' /\ same_position3 x x' in
  is_tetra (tri vec3 wrap3 s1) p1 q1 c1 d1 -> same q1 p2 ->
  exists q2 c2 d2, is_tetra (tri vec3 wrap3 s2) p2 q2 c2 d2 /\ same p1 q2 /\ same c1 c2 /\ same d1 d2.
Proof. exact ranks_agree3. Qed.
Print Assumptions C75_ranks_agree.

(** If a single rank that knows all images can triangulate them, it gives the same tetrahedra. *)
Theorem C75_single_rank : forall ranks cfg build_fuel search_fuel pop box particles circumcircle characteristic_length chunk_size pop' l whole fuel w w' r s p p',
  distributed3 ranks box particles -> max_depth cfg < build_fuel ->
  (x3 (max3 box) - x3 (min3 box) == y3 (max3 box) - y3 (min3 box))%Q /\ (x3 (max3 box) - x3 (min3 box) == z3 (max3 box) - z3 (min3 box))%Q ->
  covers_spheres3 to_point3 circumcircle -> all_images3 box particles l -> whole3 box pop' l = Some whole ->
  starts_from3 ranks pop particles (box_remap3 box) (box_outer3 box) w ->
  run3 ranks cfg build_fuel search_fuel pop box particles (box_remap3 box) circumcircle characteristic_length chunk_size fuel w = Some (Done w') ->
  nth_error w' r = Some s -> nth_error (kinds vec3 wrap3 s) p = Some Inner ->
  (exists x x', nth_error (points vec3 wrap3 s) p = Some x /\ nth_error (box_outer3 box ++ l) p' = Some x' /\ same_position3 x x') ->
  same_tetras_around (points vec3 wrap3 s) (tri vec3 wrap3 s) p (box_outer3 box ++ l) whole p'.
Proof. exact single_rank3. Qed.
Print Assumptions C75_single_rank.

(** The exact center with a radius that is smaller than the true one by less than the safety factor is enough. *)
Theorem C75_exact_spheres : forall circumcircle,
  (forall a b c d center radius, ~ (volume6 (Geometry_Model.TT (to_point3 a) (to_point3 b) (to_point3 c) (to_point3 d)) == 0)%Q ->
     circumcircle [a; b; c; d] = (center, radius) ->
     circumscribed3 (Geometry_Model.TT (to_point3 a) (to_point3 b) (to_point3 c) (to_point3 d)) (to_point3 center) /\ (0 < radius)%Q /\
     (dist2_3 (to_point3 center) (to_point3 a) < (radius * search_safety_factor) * (radius * search_safety_factor))%Q) ->
  covers_spheres3 to_point3 circumcircle.
Proof. exact exact_covers3. Qed.
Print Assumptions C75_exact_spheres.

(** Two ranks with three particles in the middle of a large box, around which the initial tetrahedron is
    drawn closely: neither rank can do without the particles of the other one. *)
Definition ex_box : extent3 := E3 (V3 (-450) (-450) (-450)) (V3 550 550 550).
Definition ex_outer : list vec3 := [V3 40 40 40; V3 70 40 40; V3 40 70 40; V3 40 40 70].
Definition ex_particles (r : nat) : list (nat * vec3) :=
  match r with
  | 0 => [(0, V3 46 47 48); (1, V3 49 45 44)]
  | 1 => [(0, V3 44 49 50)]
  | _ => []
  end.
Definition ex_cfg : config := {| max_depth := 10; max_per_leaf := 4 |}.
Definition ex_pop (n : nat) (l : list nat) : nat := hd 0 l.
(* the center of the circumsphere and an upper bound of the radius *)
Definition ex_circumcircle (l : list vec3) : vec3 * Q :=
  match l with
  | [a; b; c; d] =>
    let o := Geometry_Model.circumcenter3 (Geometry_Model.TT (to_point3 a) (to_point3 b) (to_point3 c) (to_point3 d)) in
    (V3 (Qred (Geometry_Model.x3 o)) (Qred (Geometry_Model.y3 o)) (Qred (Geometry_Model.z3 o)), (Z.sqrt (Qfloor (dist2_3 o (to_point3 a))) + 1 # 1)%Q)
  | _ => (V3 0 0 0, 0%Q)
  end.
Definition ex_rank (s : triangulation) (r : nat) : outcome (rank_state vec3 wrap3) :=
  initial vec3 wrap3 (insert3 ex_pop to_point3) s ex_outer (map snd (ex_particles r)).
Definition ex_start : outcome (list (rank_state vec3 wrap3)) :=
  match all_encompassing_3d with
  | Some s => map_outcome (ex_rank s) [0; 1]
  | None => Panic InsertFailed
  end.
Definition ex_end (start : outcome (list (rank_state vec3 wrap3))) : option (outcome (list (rank_state vec3 wrap3))) :=
  match start with
  | Done w => run3 2 ex_cfg 20 60 ex_pop ex_box ex_particles to_point3 ex_circumcircle 400 100 20 w
  | Panic _ => None
  end.
Example C75_example_distributed : distributed3 2 ex_box ex_particles.
Proof.
  constructor.
  - repeat split; reflexivity.
  - intros [|[|r]]; cbn; repeat constructor.
  - intros [|[|r]]; cbn; split; intro H; try lia; try discriminate. contradiction.
  - intros [|[|r]]; cbn; repeat (constructor; [cbn; lia|]); constructor.
Qed.
Example C75_example_outer : length ex_outer = 4 /\ (0 < volume6 (shape3 (positions3 to_point3 ex_outer) 0 1 2 3))%Q.
Proof. split; reflexivity. Qed.
Example C75_example_coordinates : forall p q, same_position3 p q <-> same_point3 (to_point3 p) (to_point3 q).
Proof. intros p q. reflexivity. Qed.
Lemma Qsq_nonneg (x : Q) : (0 <= x * x)%Q.
Proof. nra. Qed.
Lemma Qadd_nonneg (x y : Q) : (0 <= x -> 0 <= y -> 0 <= x + y)%Q.
Proof. lra. Qed.
Lemma ex_radius d : (0 <= d)%Q -> (d < ((Z.sqrt (Qfloor d) + 1 # 1) * search_safety_factor) * ((Z.sqrt (Qfloor d) + 1 # 1) * search_safety_factor))%Q.
Proof.
  intro H. pose proof (Qlt_floor d) as A. assert (F0 : (0 <= Qfloor d)%Z) by (change 0%Z with (Qfloor 0); now apply Qfloor_resp_le).
  pose proof (Z.sqrt_spec (Qfloor d) F0) as [_ B]. set (z := Z.sqrt (Qfloor d)) in *. assert (Z0 : (0 <= z)%Z) by apply Z.sqrt_nonneg.
  assert (C : (inject_Z (Qfloor d + 1) <= inject_Z (Z.succ z * Z.succ z))%Q) by (rewrite <- Zle_Qle; lia).
  rewrite inject_Z_mult in C. unfold Z.succ in C. change (z + 1 # 1) with (inject_Z (z + 1)). assert (P : (0 <= inject_Z (z + 1))%Q) by (change 0%Q with (inject_Z 0); rewrite <- Zle_Qle; lia).
  set (q := inject_Z (z + 1)) in *. unfold search_safety_factor. nra.
Qed.
Example C75_example_spheres : covers_spheres3 to_point3 ex_circumcircle.
Proof.
  apply C75_exact_spheres. intros a b c d center radius NZ E. unfold ex_circumcircle in E.
  set (t := Geometry_Model.TT (to_point3 a) (to_point3 b) (to_point3 c) (to_point3 d)) in *. pose proof (circumcenter3_ok t NZ) as [C1 [C2 C3]].
  set (o := Geometry_Model.circumcenter3 t) in *. clearbody o.
  assert (SM : same_point3 o (to_point3 (V3 (Qred (Geometry_Model.x3 o)) (Qred (Geometry_Model.y3 o)) (Qred (Geometry_Model.z3 o)))))
    by (repeat split; cbn; symmetry; apply Qred_correct).
  apply pair_equal_spec in E. destruct E as [<- <-].
  set (o' := to_point3 _) in SM |- *. assert (DE : forall v, (dist2_3 o' v == dist2_3 o v)%Q).
  { intro v. destruct SM as [S1 [S2 S3]]. unfold dist2_3. rewrite <- S1, <- S2, <- S3. reflexivity. }
  split; [|split].
  - split; [|split]; rewrite !DE; assumption.
  - set (z := Z.sqrt _). assert (0 <= z)%Z by apply Z.sqrt_nonneg. unfold Qlt. cbn. lia.
  - rewrite DE. apply ex_radius. unfold dist2_3. repeat apply Qadd_nonneg; apply Qsq_nonneg.
Qed.
Example C75_example_starts : forall s0 w, all_encompassing_3d = Some s0 -> map_outcome (ex_rank s0) [0; 1] = Done w ->
  starts_from3 2 ex_pop ex_particles to_point3 ex_outer w.
Proof.
  intros s0 w E0 H. cbn [map_outcome] in H. destruct (ex_rank s0 0) as [sa|] eqn:Ea; cbn [andthen] in H; [|discriminate].
  destruct (ex_rank s0 1) as [sb|] eqn:Eb; cbn [andthen] in H; [|discriminate]. injection H as <-.
  split; [reflexivity|]. intros r s Hr. exists s0, (map snd (ex_particles r)).
  split; [exact E0|]. split; [apply Permutation_refl|]. unfold ex_rank in *.
  destruct r as [|[|r]]; cbn [nth_error] in Hr; [| |destruct r; discriminate]; injection Hr as <-; assumption.
Qed.
Example C75_example_run :
  match ex_end ex_start with
  | Some (Done w) => map (fun s => length (filter is_inner (kinds vec3 wrap3 s))) w = [2; 1] /\ map (fun s => length (haloes vec3 wrap3 s)) w = [1; 2]
  | _ => False
  end.
Proof. vm_compute. split; reflexivity. Qed.
