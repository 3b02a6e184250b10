(** Voronoi cells in space, in terms of the triangulation and of distances. *)
From Coq Require Import List Arith QArith Reals Qreals Qabs.
From Verif Require Import Geometry_Model Geometry_Spec Delaunay_Model DelaunayGlobal3_Spec Cyclic_Spec Voronoi_Spec Voronoi3_Model.
Import ListNotations.
Local Open Scope Q_scope.

(** The points [r] are the ring around the line from [p] to [q]: the tetrahedra with both points as corners are those with
    two consecutive points of the ring. *)
Record ring_around (s : triangulation) (p q : nat) (r : list nat) : Prop := {
  ra_once : NoDup r;
  ra_three : (3 <= length r)%nat;
  ra_tetras : forall a b, is_tetra s p q a b <-> In (a, b) (around r) \/ In (b, a) (around r)
}.

(** The face of the cell of [p] towards [q]: it has the type of [q], is perpendicular to the line from [p] to [q], and its
    corners are the centers of the circumspheres around this line in their order. *)
Record is_face3 {C} (pts : nat -> point3) (s : triangulation) (ptype : nat -> C) (p q : nat) (f : voronoi_face3 C) : Prop := {
  vf3_type : connection3 f = ptype q;
  vf3_normal : normal3 f = sub3 (pts q) (pts p);
  vf3_polygon : exists r, ring_around s p q r /\
    Forall2 (fun ab v => circumscribed3 (shape3 pts p q (fst ab) (snd ab)) v) (around r) (polygon f)
}.

(** The cell of [p] has exactly one face for every neighbour; its corners are the centers of the circumspheres of the
    tetrahedra around [p]. *)
Record cell_of3 {C} (pts : nat -> point3) (s : triangulation) (ptype : nat -> C) (p : nat) (c : cell3 C) : Prop := {
  cl3_point : delaunay_point3 c = p;
  cl3_index : index3 c = ptype p;
  cl3_center : center3 c = pts p;
  cl3_corners : forall v, In v (cell_points3 c) -> exists a b d, is_tetra s p a b d /\ circumscribed3 (shape3 pts p a b d) v;
  cl3_all_corners : forall a b d, is_tetra s p a b d -> exists v, In v (cell_points3 c) /\ circumscribed3 (shape3 pts p a b d) v;
  cl3_faces : exists qs, NoDup qs /\ (forall q, In q qs <-> neighbour s p q) /\ Forall2 (is_face3 pts s ptype p) qs (cell_faces3 c);
  cl3_infinite : is_infinite3 c = true <-> exists q, (q < 4)%nat /\ neighbour s p q
}.

(** [x] is closer to [p] than to any of the other points. *)
Definition strictly_nearest (pts : nat -> point3) (n p : nat) (x : point3) : Prop :=
  forall q, (q < n)%nat -> q <> p -> dist2_3 x (pts p) < dist2_3 x (pts q).

(** Twice the area of the triangle [x a b] times the length of [n], if the triangle is perpendicular to [n]; the sign says in
    which direction the corners go around [n]. *)
Definition turn3 (n x a b : point3) : Q := volume6 (TT x (add3 x n) a b).
(** The corners of a face are in a plane perpendicular to the normal and form a convex polygon, and the area is the area of this
    polygon: the formula holds for every reference point [x]. *)
Record proper_face {C} (f : voronoi_face3 C) : Prop := {
  pf_flat : forall a b, In a (polygon f) -> In b (polygon f) -> dot3 (normal3 f) (sub3 a b) == 0;
  pf_convex : exists sg, (sg == 1 \/ sg == -1) /\
    (forall x w, In x (polygon f) -> In w (around (polygon f)) -> 0 <= sg * turn3 (normal3 f) x (fst w) (snd w)) /\
    (forall x, (face_area f * length3 (normal3 f) = 1/2 * Q2R ((sg * fold_right Qplus 0%Q (map (fun w => turn3 (normal3 f) x (fst w) (snd w)) (around (polygon f))))%Q))%R);
  pf_area : (0 < face_area f)%R
}.
(** The volume of a cell: the tetrahedra from the center to the triangles between the first and two consecutive corners of every face;
    and the area of every face times half the distance to the neighbour, divided by three. *)
Definition fan_volume (p : point3) (l : list point3) : Q :=
  fold_right Qplus 0 (map (fun w => (1#6) * Qabs (volume6 (TT p (nth 0 l (P3 0 0 0)) (fst w) (snd w)))) (around l)).
Record volume_of_cell {C} (c : cell3 C) : Prop := {
  vc_tetras : (cell_volume3 c = Q2R (fold_right Qplus 0%Q (map (fun f => fan_volume (center3 c) (polygon f)) (cell_faces3 c))))%R;
  vc_faces : (cell_volume3 c = sumR (map (fun f => 1/3 * face_area f * (1/2 * length3 (normal3 f))) (cell_faces3 c)))%R;
  vc_positive : (0 < cell_volume3 c)%R
}.

(** The faces between two points as seen from both sides. *)
Definition mutual_faces3 {C} (pts : nat -> point3) (s : triangulation) (ptype : nat -> C) (p q : nat) (c d : cell3 C) : Prop :=
  exists f g, In f (cell_faces3 c) /\ In g (cell_faces3 d) /\ is_face3 pts s ptype p q f /\ is_face3 pts s ptype q p g /\
    face_area f = face_area g /\ x3 (normal3 f) == - x3 (normal3 g) /\ y3 (normal3 f) == - y3 (normal3 g) /\ z3 (normal3 f) == - z3 (normal3 g).

(** The types of the points of a single rank. *)
Definition own_types3 {C} (boundary : C) (ids : nat -> C) (p : nat) : C := if (p <? 4)%nat then boundary else ids (p - 4)%nat.

(** The order of a hash set: every item once. *)
Definition iterates_set (hash_set : list nat -> list nat) : Prop :=
  forall l, NoDup (hash_set l) /\ forall x, In x (hash_set l) <-> In x l.
