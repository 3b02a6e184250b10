(** Properties of the Voronoi cells of a set of points in space: the faces are those towards the neighbours in the
    triangulation (C71), a cell contains the places that are strictly nearest to its point (C72), the area of the faces and the volume
    (C73), and two neighbours see the same face (C74). *)
From Coq Require Import List Arith Lia QArith Reals Qreals Permutation.
From Verif Require Import Geometry_Model Geometry_Spec Delaunay_Model Delaunay_Spec DelaunayGlobal3_Spec DelaunayGeo_Model DelaunayRemap3_Model
  DelaunayTotal3_Proofs DelaunayRemap3_Proofs DelaunayUnique3_Proofs Voronoi_Spec Voronoi3_Model Voronoi3_Spec VoronoiConstruct3_Proofs.
Import ListNotations.
Local Open Scope Q_scope.

(** C71: the construction of the cells does not panic, and every cell has exactly one face for every neighbour, whose corners
    are the centers of the circumspheres around the line to the neighbour, in their order. *)
Theorem C71_cells (C : Type) (boundary : C) ids hash_set min max pop l s : iterates_set hash_set ->
  x3 min < x3 max -> y3 min < y3 max -> z3 min < z3 max -> construct3 min max pop l = Some s ->
  exists cells, construct_voronoi3 C boundary (table3 min max l) is_corner3 (own_cells3 ids) hash_set s = Some cells /\
    Forall2 (cell_of3 (table3 min max l) s (own_types3 boundary ids)) (seq 4 (length l)) cells.
Proof. exact (own_cells_ok3 C boundary ids hash_set min max pop l s). Qed.
Print Assumptions C71_cells.

Definition example_min3 : point3 := P3 0 0 0.
Definition example_max3 : point3 := P3 100 100 100.
Definition example_one : list point3 := [P3 20 30 25].
Definition example_hash : list nat -> list nat := nodup Nat.eq_dec.
Definition example_cells3 (l : list point3) : list (cell3 nat) :=
  match construct3 example_min3 example_max3 (fun p _ => p) l with
  | Some s => match construct_voronoi3 nat 0%nat (table3 example_min3 example_max3 l) is_corner3 (own_cells3 S) example_hash s with Some cells => cells | None => [] end
  | None => []
  end.
Example C71_hash : iterates_set example_hash.
Proof. intro l. split; [apply NoDup_nodup|intro x; apply nodup_In]. Qed.
Example C71_example : map (fun c => (index3 c, map (fun f => (connection3 f, length (polygon f))) (cell_faces3 c), is_infinite3 c)) (example_cells3 example_one) =
  [(1, [(0, 3); (0, 3); (0, 3); (0, 3)], true)]%nat.
Proof. vm_compute. reflexivity. Qed.

(** C72: [contains] holds exactly for the places that are strictly closer to the point than to any other (in a cubic extent). *)
Theorem C72_contains (C : Type) (boundary : C) ids hash_set min max pop l s cells k c x : iterates_set hash_set ->
  x3 min < x3 max -> y3 min < y3 max -> z3 min < z3 max -> construct3 min max pop l = Some s ->
  x3 max - x3 min == y3 max - y3 min -> x3 max - x3 min == z3 max - z3 min ->
  construct_voronoi3 C boundary (table3 min max l) is_corner3 (own_cells3 ids) hash_set s = Some cells -> nth_error cells k = Some c ->
  cell_contains3 c x = true <-> strictly_nearest (table3 min max l) (length l + 4) (4 + k) x.
Proof. intros hash Hx Hy Hz B S1 S2. exact (own_contains3 C boundary ids hash_set min max pop l s hash Hx Hy Hz B S1 S2 cells k c x). Qed.
Print Assumptions C72_contains.
Example C72_example : x3 example_max3 - x3 example_min3 == y3 example_max3 - y3 example_min3 /\ x3 example_max3 - x3 example_min3 == z3 example_max3 - z3 example_min3 /\
  map (fun c => map (cell_contains3 c) [P3 20 30 25; P3 100 0 100; P3 (-1000) 0 0]) (example_cells3 example_one) = [[true; true; false]].
Proof. vm_compute. repeat split; reflexivity. Qed.

(** C73: the faces are convex polygons and their area is the area of the polygon; the volume is the volume of the tetrahedra from
    the point to the faces and the sum of a third of the area times the distance from the point, in particular positive. *)
Theorem C73_volume (C : Type) (boundary : C) ids hash_set min max pop l s cells k c : iterates_set hash_set ->
  x3 min < x3 max -> y3 min < y3 max -> z3 min < z3 max -> construct3 min max pop l = Some s ->
  x3 max - x3 min == y3 max - y3 min -> x3 max - x3 min == z3 max - z3 min ->
  construct_voronoi3 C boundary (table3 min max l) is_corner3 (own_cells3 ids) hash_set s = Some cells -> nth_error cells k = Some c ->
  volume_of_cell c /\ (4 <= length (cell_faces3 c))%nat /\ forall f, In f (cell_faces3 c) -> proper_face f.
Proof. intros hash Hx Hy Hz B S1 S2. exact (own_volume3 C boundary ids hash_set min max pop l s hash Hx Hy Hz B S1 S2 cells k c). Qed.
Print Assumptions C73_volume.
Definition red3 (p : point3) : point3 := P3 (Qred (x3 p)) (Qred (y3 p)) (Qred (z3 p)).
(** The tetrahedra between the center and the four faces of the only cell. *)
Example C73_example : map (fun c => map (fun f => Qred (fan_volume (red3 (center3 c)) (map red3 (polygon f)))) (cell_faces3 c)) (example_cells3 example_one) =
  [[114969399092171 # 20471643; 195504428243479 # 153363834; 8110517199786983 # 1727484954; 2508440358916091 # 388576773]].
Proof. vm_compute. reflexivity. Qed.

(** C74: the faces between two neighbours have the same area and opposite normals. *)
Theorem C74_mutual (C : Type) (boundary : C) ids hash_set min max pop l s cells j k c d : iterates_set hash_set ->
  x3 min < x3 max -> y3 min < y3 max -> z3 min < z3 max -> construct3 min max pop l = Some s ->
  construct_voronoi3 C boundary (table3 min max l) is_corner3 (own_cells3 ids) hash_set s = Some cells -> nth_error cells j = Some c -> nth_error cells k = Some d ->
  neighbour s (4 + j) (4 + k) -> mutual_faces3 (table3 min max l) s (own_types3 boundary ids) (4 + j) (4 + k) c d.
Proof. intros hash Hx Hy Hz B. exact (own_mutual3 C boundary ids hash_set min max pop l s hash Hx Hy Hz B cells j k c d). Qed.
Print Assumptions C74_mutual.
Definition example_two : list point3 := [P3 20 30 25; P3 70 20 40].
Lemma example_general3 : general_position3 (table3 example_min3 example_max3 example_two) (length example_two + 4).
Proof. apply check_table3; vm_compute; reflexivity. Qed.
(** The two points of a list with two points are neighbours. *)
Example C74_example : forall pop, exists s, construct3 example_min3 example_max3 pop example_two = Some s /\ neighbour s (4 + 0) (4 + 1).
Proof.
  intro pop. destruct (construct3_total_cube example_min3 example_max3 pop example_two) as [s H]; [reflexivity|reflexivity|reflexivity|exact example_general3|].
  exists s. split; [exact H|]. pose proof (construct3_points _ _ _ _ _ H) as N. cbn in N.
  assert (T : is_tetra s 4 5 1 2).
  { apply (good_complete3 (remapped_table3 example_min3 example_max3 example_two) s);
      [exact (construct3_good example_min3 example_max3 pop example_two s eq_refl eq_refl eq_refl H)|rewrite N; repeat constructor..|vm_compute; discriminate|].
    exists (P3 (308207#204464) (308207#204464) (38895#204464)). split; [vm_compute; repeat split; reflexivity|].
    rewrite N. intros v L N1 N2 N3 N4. destruct v as [|[|[|[|[|[|v]]]]]]; try congruence; try (vm_compute; reflexivity).
    exfalso. lia. }
  destruct T as [i [t [T1 T2]]]. split; [discriminate|]. exists i, t. split; [exact T1|].
  split; apply (Permutation_in _ T2); cbn; auto.
Qed.
