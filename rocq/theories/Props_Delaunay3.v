(** Properties of the triangulation of a set of points in space: that it is the Delaunay triangulation
    (C68), that it does not depend on the order of the insertions (C69) and that the construction does
    not panic for points in general position (C70). *)
From Coq Require Import List Arith QArith Permutation.
From Verif Require Import Geometry_Model Geometry_Spec Delaunay_Model Delaunay_Spec DelaunayGlobal3_Spec DelaunayGeo_Model
  DelaunayRemap3_Model DelaunayGlobal3_Proofs DelaunayUnique3_Proofs DelaunayRemap3_Proofs DelaunayTotal3_Proofs.
Import ListNotations.
Local Open Scope Q_scope.

(** C68: in the coordinates that the predicates see, the tetrahedra cover the initial tetrahedron without
    overlap and no circumsphere contains another point, not even on the sphere. *)
Theorem C68_delaunay min max pop l s : x3 min < x3 max -> y3 min < y3 max -> z3 min < z3 max ->
  construct3 min max pop l = Some s -> delaunay3 (remapped_table3 min max l) s.
Proof. intros Hx Hy Hz. exact (construct3_remapped min max pop l s Hx Hy Hz). Qed.
Print Assumptions C68_delaunay.
(** All points are in it. *)
Theorem C68_points min max pop l s : construct3 min max pop l = Some s -> num_points s = (length l + 4)%nat.
Proof. exact (construct3_points min max pop l s). Qed.
Print Assumptions C68_points.
(** Conversely every four points with an empty circumsphere are a tetrahedron of the triangulation. *)
Theorem C68_all_tetras min max pop l s a b c d : x3 min < x3 max -> y3 min < y3 max -> z3 min < z3 max ->
  construct3 min max pop l = Some s -> (a < num_points s)%nat -> (b < num_points s)%nat -> (c < num_points s)%nat -> (d < num_points s)%nat ->
  ~ volume6 (shape3 (remapped_table3 min max l) a b c d) == 0 ->
  empty_circumsphere3 (remapped_table3 min max l) (num_points s) a b c d -> is_tetra s a b c d.
Proof. intros Hx Hy Hz H. exact (good_complete3 _ s a b c d (construct3_good min max pop l s Hx Hy Hz H)). Qed.
Print Assumptions C68_all_tetras.
(** The same for any table of points, with any answers of the predicates that are computed from it. *)
Theorem C68_any_table pts pop n s : 0 < volume6 (shape3 pts 0 1 2 3) ->
  built3 (crossing3 pts) (circle3 pts) (inside3 pts) pop n s -> delaunay3 pts s.
Proof. intros P0 H. exact (good_delaunay3 pts s (built3_good pts pop n s P0 H) P0). Qed.
Print Assumptions C68_any_table.
(** In the coordinates of the points the tetrahedra cover the initial tetrahedron without overlap, and if
    the extent is a cube their circumspheres are empty. *)
Theorem C68_tiles min max pop l s : x3 min < x3 max -> y3 min < y3 max -> z3 min < z3 max ->
  construct3 min max pop l = Some s -> tiles3 (table3 min max l) s.
Proof. intros Hx Hy Hz. exact (construct3_tiles min max pop l s Hx Hy Hz). Qed.
Print Assumptions C68_tiles.
Theorem C68_cube min max pop l s : x3 min < x3 max -> y3 min < y3 max -> z3 min < z3 max ->
  x3 max - x3 min == y3 max - y3 min -> x3 max - x3 min == z3 max - z3 min ->
  construct3 min max pop l = Some s -> delaunay3 (table3 min max l) s.
Proof. intros Hx Hy Hz C1 C2 H. exact (construct3_cube min max pop l s Hx Hy Hz H C1 C2). Qed.
Print Assumptions C68_cube.
(** The periodic images of a cubic box are in a cubic extent. *)
Theorem C68_periodic min max : x3 max - x3 min == y3 max - y3 min -> x3 max - x3 min == z3 max - z3 min ->
  let (pmin, pmax) := including_periodic_images3 min max in
  x3 pmax - x3 pmin == y3 pmax - y3 pmin /\ x3 pmax - x3 pmin == z3 pmax - z3 pmin.
Proof.
  intros S1 S2. cbn.
  setoid_replace (x3 max + (x3 max - x3 min) - (x3 min - (x3 max - x3 min))) with (3 * (x3 max - x3 min)) by ring.
  setoid_replace (y3 max + (y3 max - y3 min) - (y3 min - (y3 max - y3 min))) with (3 * (y3 max - y3 min)) by ring.
  setoid_replace (z3 max + (z3 max - z3 min) - (z3 min - (z3 max - z3 min))) with (3 * (z3 max - z3 min)) by ring.
  rewrite <- S1, <- S2. split; reflexivity.
Qed.
Print Assumptions C68_periodic.
(** They are in it: every point of the box, moved by at most one side in every direction. *)
Theorem C68_images min max p i j k : in_box3 min max p -> -1 <= i <= 1 -> -1 <= j <= 1 -> -1 <= k <= 1 ->
  let (pmin, pmax) := including_periodic_images3 min max in
  in_box3 pmin pmax (P3 (x3 p + i * (x3 max - x3 min)) (y3 p + j * (y3 max - y3 min)) (z3 p + k * (z3 max - z3 min))).
Proof. exact (images_inside3 min max p i j k). Qed.
Print Assumptions C68_images.

(** C69: the tetrahedra do not depend on the order of the points nor on the order in which the flip
    checks are taken from the stack. *)
Theorem C69_order min max pop pop' l l' s s' : x3 min < x3 max -> y3 min < y3 max -> z3 min < z3 max -> Permutation l l' ->
  construct3 min max pop l = Some s -> construct3 min max pop' l' = Some s' ->
  forall a b c d, is_tetra s a b c d -> exists a' b' c' d', is_tetra s' a' b' c' d' /\
    table3 min max l a = table3 min max l' a' /\ table3 min max l b = table3 min max l' b' /\
    table3 min max l c = table3 min max l' c' /\ table3 min max l d = table3 min max l' d'.
Proof. exact (construct3_order min max pop pop' l l' s s'). Qed.
Print Assumptions C69_order.

(** C70: the construction does not panic if the points are in general position. *)
Theorem C70_total min max pop l : x3 min < x3 max -> y3 min < y3 max -> z3 min < z3 max ->
  general_position3 (remapped_table3 min max l) (length l + 4) -> exists s, construct3 min max pop l = Some s.
Proof. exact (construct3_total min max pop l). Qed.
Print Assumptions C70_total.
Theorem C70_total_cube min max pop l : x3 min < x3 max -> x3 max - x3 min == y3 max - y3 min -> x3 max - x3 min == z3 max - z3 min ->
  general_position3 (table3 min max l) (length l + 4) -> exists s, construct3 min max pop l = Some s.
Proof. exact (construct3_total_cube min max pop l). Qed.
Print Assumptions C70_total_cube.
(** Points in the extent are in the initial tetrahedron. *)
Theorem C70_inside min max l v : x3 min < x3 max -> y3 min < y3 max -> z3 min < z3 max -> Forall (in_box3 min max) l ->
  (4 <= v < length l + 4)%nat -> strictly_inside3 (shape3 (table3 min max l) 0 1 2 3) (table3 min max l v).
Proof. exact (table3_inside min max l v). Qed.
Print Assumptions C70_inside.
(** Without general position the construction does panic, here for two points of a cubic grid. *)
Theorem C70_grid_panics : exists min max pop l, x3 min < x3 max /\ x3 max - x3 min == y3 max - y3 min /\ x3 max - x3 min == z3 max - z3 min /\
  Forall (in_box3 min max) l /\ NoDup l /\ construct3 min max pop l = None.
Proof.
  exists (P3 0 0 0), (P3 4 4 4), (fun p _ => p), [P3 3 3 3; P3 1 1 1].
  split; [reflexivity|]. split; [reflexivity|]. split; [reflexivity|]. split; [repeat constructor; vm_compute; discriminate|].
  split; [|vm_compute; reflexivity].
  repeat (constructor; [cbn; intuition discriminate|]). constructor.
Qed.
Print Assumptions C70_grid_panics.

Definition example_min3 : point3 := P3 0 0 0.
Definition example_max3 : point3 := P3 100 100 100.
Definition example_list3 : list point3 := [P3 20 30 25; P3 70 20 40; P3 45 75 60; P3 81 62 85; P3 35 50 90].
Example C70_example : x3 example_min3 < x3 example_max3 /\
  general_position3 (table3 example_min3 example_max3 example_list3) (length example_list3 + 4).
Proof. split; [reflexivity|]. apply check_table3; vm_compute; reflexivity. Qed.
(** Both orders of the points give a triangulation with nine points. *)
Example C69_example : Permutation example_list3 (rev example_list3) /\ forall pop, exists s s',
  construct3 example_min3 example_max3 pop example_list3 = Some s /\ construct3 example_min3 example_max3 pop (rev example_list3) = Some s' /\
  num_points s = 9%nat /\ num_points s' = 9%nat.
Proof.
  split; [apply Permutation_rev|]. intro pop.
  destruct (C70_total_cube example_min3 example_max3 pop example_list3) as [s H];
    [reflexivity|reflexivity|reflexivity|exact (proj2 C70_example)|].
  destruct (C70_total_cube example_min3 example_max3 pop (rev example_list3)) as [s' H'];
    [reflexivity|reflexivity|reflexivity|apply check_table3; vm_compute; reflexivity|].
  exists s, s'. split; [exact H|]. split; [exact H'|].
  rewrite (C68_points _ _ _ _ _ H), (C68_points _ _ _ _ _ H'). split; reflexivity.
Qed.
(** A tetrahedron of one inner point and three outer ones. *)
Definition example_one : list point3 := [P3 20 30 25].
Example C68_example : match construct3 example_min3 example_max3 (fun p _ => p) example_one with
  | Some s => length (tetras s) = 4%nat | None => False end.
Proof. vm_compute. reflexivity. Qed.
