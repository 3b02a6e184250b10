(** Properties of the triangulation of a set of points in the plane: that it is the Delaunay triangulation
    (C56), also in the coordinates of the points (C57), that it does not depend on the order of the
    insertions (C58) and that the construction does not panic for points in general position (C59). *)
From Coq Require Import List Arith QArith Permutation.
From Verif Require Import Geometry_Model Geometry_Spec Delaunay_Model Delaunay_Spec DelaunayGlobal_Spec DelaunayGeo_Model
  DelaunayRemap_Model DelaunayGlobal2_Proofs DelaunayUnique2_Proofs DelaunayRemap_Proofs.
Import ListNotations.
Local Open Scope Q_scope.

(** C56: in the coordinates that the predicates see, the triangles cover the initial triangle without
    overlap and no circumcircle contains another point, not even on the circle. *)
Theorem C56_delaunay min max pop l s : x2 min < x2 max -> y2 min < y2 max ->
  construct2 min max pop l = Some s -> delaunay2 (remapped_table2 min max l) s.
Proof. exact (construct2_remapped min max pop l s). Qed.
Print Assumptions C56_delaunay.
(** All points are in it. *)
Theorem C56_points min max pop l s : construct2 min max pop l = Some s -> num_points s = (length l + 3)%nat.
Proof. exact (construct2_points min max pop l s). Qed.
Print Assumptions C56_points.

(** Conversely every three points with an empty circumcircle are a triangle of the triangulation. *)
Theorem C56_all_triangles min max pop l s a b c : x2 min < x2 max -> y2 min < y2 max ->
  construct2 min max pop l = Some s -> (a < num_points s)%nat -> (b < num_points s)%nat -> (c < num_points s)%nat ->
  0 < area2 (shape2 (remapped_table2 min max l) a b c) ->
  empty_circumcircle2 (remapped_table2 min max l) (num_points s) a b c -> is_triangle s a b c.
Proof. intros Hx Hy H. exact (good_complete _ s a b c (construct2_good min max pop l s Hx Hy H)). Qed.
Print Assumptions C56_all_triangles.

(** The same for any table of points, with any answers of the predicates that are computed from it. *)
Theorem C56_any_table pts pop n s : 0 < area2 (shape2 pts 0 1 2) -> built2 (circle2 pts) (inside2 pts) pop n s -> delaunay2 pts s.
Proof. intros P0 H. exact (good_delaunay pts s (built2_good pts pop n s P0 H) P0). Qed.
Print Assumptions C56_any_table.

Definition example_min : point2 := P2 0 0.
Definition example_max : point2 := P2 4 4.
Definition example_list : list point2 := [P2 1 1; P2 2 3; P2 (7#2) (1#2); P2 (7#3) 2; P2 (3#2) (7#2); P2 (10#3) (19#6)].
Definition triangles_of (o : option triangulation) : list (list nat) :=
  match o with Some s => map (fun e => points_of (snd e)) (tetras s) | None => [] end.
Example C56_example : x2 example_min < x2 example_max /\ length (triangles_of (construct2 example_min example_max (fun p _ => p) example_list)) = 13%nat.
Proof. vm_compute. split; reflexivity. Qed.

(** C57: in the coordinates of the points the triangles cover the initial triangle without overlap, and if
    the extent is a square their circumcircles are empty. *)
Theorem C57_tiles min max pop l s : x2 min < x2 max -> y2 min < y2 max ->
  construct2 min max pop l = Some s -> tiles2 (table2 min max l) s.
Proof. exact (construct2_tiles min max pop l s). Qed.
Print Assumptions C57_tiles.
Theorem C57_square min max pop l s : x2 min < x2 max -> x2 max - x2 min == y2 max - y2 min ->
  construct2 min max pop l = Some s -> delaunay2 (table2 min max l) s.
Proof.
  intros Hx SQ H. apply (construct2_square min max pop l s); auto. apply (Qplus_lt_l _ _ (- y2 min)).
  setoid_replace (y2 max + - y2 min) with (x2 max - x2 min) by (rewrite SQ; ring).
  setoid_replace (y2 min + - y2 min) with (x2 min - x2 min) by ring. apply Qplus_lt_l. exact Hx.
Qed.
Print Assumptions C57_square.
(** The periodic images of a square box are in a square extent. *)
Theorem C57_periodic min max : x2 max - x2 min == y2 max - y2 min ->
  let (pmin, pmax) := including_periodic_images2 min max in x2 pmax - x2 pmin == y2 pmax - y2 pmin.
Proof.
  intro SQ. cbn. setoid_replace (x2 max + (x2 max - x2 min) - (x2 min - (x2 max - x2 min))) with (3 * (x2 max - x2 min)) by ring.
  setoid_replace (y2 max + (y2 max - y2 min) - (y2 min - (y2 max - y2 min))) with (3 * (y2 max - y2 min)) by ring.
  rewrite SQ. reflexivity.
Qed.
Print Assumptions C57_periodic.
(** They are in it: every point of the box, moved by at most one side in both directions. *)
Theorem C57_images min max p i j : in_box2 min max p -> -1 <= i <= 1 -> -1 <= j <= 1 ->
  let (pmin, pmax) := including_periodic_images2 min max in
  in_box2 pmin pmax (P2 (x2 p + i * (x2 max - x2 min)) (y2 p + j * (y2 max - y2 min))).
Proof. exact (images_inside2 min max p i j). Qed.
Print Assumptions C57_images.
(** If the extent is not a square, the result is in general not a Delaunay triangulation of the points: the
    circumcircle of a triangle of inner points contains another inner point. *)
Theorem C57_delaunay_refuted : exists min max pop l s a b c v o, x2 min < x2 max /\ y2 min < y2 max /\ Forall (in_box2 min max) l /\
  construct2 min max pop l = Some s /\ is_triangle s a b c /\
  (3 <= a)%nat /\ (3 <= b)%nat /\ (3 <= c)%nat /\ (3 <= v < num_points s)%nat /\ v <> a /\ v <> b /\ v <> c /\
  circumscribed2 (shape2 (table2 min max l) a b c) o /\ dist2_2 o (table2 min max l v) < dist2_2 o (table2 min max l a).
Proof.
  exists (P2 0 0), (P2 4 1), (fun p _ => p), [P2 1 (1#2); P2 3 (1#2); P2 2 (9#10); P2 2 (1#11)]. eexists.
  exists 3%nat, 4%nat, 5%nat, 6%nat, (P2 2 (- (11#20))).
  split; [reflexivity|]. split; [reflexivity|]. split; [repeat constructor; vm_compute; discriminate|].
  split; [vm_compute; reflexivity|].
  split; [exists 9%nat; eexists; split; [cbn; right; left; reflexivity|left; reflexivity]|].
  repeat split; try (vm_compute; reflexivity); try (vm_compute; repeat constructor; fail); try discriminate.
Qed.
Print Assumptions C57_delaunay_refuted.

(** C58: the triangles do not depend on the order of the points nor on the order in which the flip checks
    are taken from the stack. *)
Theorem C58_order min max pop pop' l l' s s' : x2 min < x2 max -> y2 min < y2 max -> Permutation l l' ->
  construct2 min max pop l = Some s -> construct2 min max pop' l' = Some s' ->
  forall a b c, is_triangle s a b c -> exists a' b' c', is_triangle s' a' b' c' /\
    table2 min max l a = table2 min max l' a' /\ table2 min max l b = table2 min max l' b' /\ table2 min max l c = table2 min max l' c'.
Proof. exact (construct2_order min max pop pop' l l' s s'). Qed.
Print Assumptions C58_order.

Example C58_example : Permutation example_list (rev example_list) /\
  triangles_of (construct2 example_min example_max (fun p _ => p) example_list) <> [] /\
  triangles_of (construct2 example_min example_max (fun p _ => p) (rev example_list)) <> [].
Proof. split; [apply Permutation_rev|]. split; vm_compute; discriminate. Qed.

(** C59: the construction does not panic if the points are in general position. *)
Theorem C59_total min max pop l : x2 min < x2 max -> y2 min < y2 max ->
  general_position (remapped_table2 min max l) (length l + 3) -> exists s, construct2 min max pop l = Some s.
Proof. exact (construct2_total min max pop l). Qed.
Print Assumptions C59_total.
Theorem C59_total_square min max pop l : x2 min < x2 max -> x2 max - x2 min == y2 max - y2 min ->
  general_position (table2 min max l) (length l + 3) -> exists s, construct2 min max pop l = Some s.
Proof. exact (construct2_total_square min max pop l). Qed.
Print Assumptions C59_total_square.
(** Points in the extent are in the initial triangle. *)
Theorem C59_inside min max l v : x2 min < x2 max -> y2 min < y2 max -> Forall (in_box2 min max) l ->
  (3 <= v < length l + 3)%nat -> strictly_inside2 (shape2 (table2 min max l) 0 1 2) (table2 min max l v).
Proof. exact (table2_inside min max l v). Qed.
Print Assumptions C59_inside.
(** Without general position the construction does panic, here for four points of a square grid. *)
Theorem C59_grid_panics : exists min max pop l, x2 min < x2 max /\ x2 max - x2 min == y2 max - y2 min /\ Forall (in_box2 min max) l /\
  NoDup l /\ construct2 min max pop l = None.
Proof.
  exists (P2 0 0), (P2 4 4), (fun p _ => p), [P2 1 1; P2 3 1; P2 1 3; P2 3 3].
  split; [reflexivity|]. split; [reflexivity|]. split; [repeat constructor; vm_compute; discriminate|].
  split; [|vm_compute; reflexivity].
  repeat (constructor; [cbn; intuition discriminate|]). constructor.
Qed.
Print Assumptions C59_grid_panics.
Example C59_example : general_position (table2 example_min example_max example_list) (length example_list + 3).
Proof. apply check_general_ok; vm_compute; reflexivity. Qed.
