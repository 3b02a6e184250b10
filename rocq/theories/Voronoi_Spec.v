(** Voronoi cells in the plane, in terms of the triangulation and of distances. *)
From Coq Require Import List Arith QArith.
From Verif Require Import Geometry_Model Geometry_Spec Delaunay_Model DelaunayGlobal_Spec Voronoi_Model.
Import ListNotations.
Local Open Scope Q_scope.

(** A triangle has [p] and [q] as corners. *)
Definition neighbour (s : triangulation) (p q : nat) : Prop :=
  q <> p /\ exists i t, In (i, t) (tetras s) /\ In p (points_of t) /\ In q (points_of t).

(** The centers of the circumcircles of the triangles on the left and on the right of the edge from [p] to [q]. *)
Definition edge_centers (pts : nat -> point2) (s : triangulation) (p q : nat) (o1 o2 : point2) : Prop :=
  (exists a, is_triangle s p q a /\ circumscribed2 (shape2 pts p q a) o1) /\
  (exists b, is_triangle s q p b /\ circumscribed2 (shape2 pts q p b) o2).

(** The face of the cell of [p] towards [q]: it has the type of [q], is perpendicular to the line from [p] to [q] and
    connects the centers of the two circles through [p] and [q]. *)
Record is_face {C} (pts : nat -> point2) (s : triangulation) (ptype : nat -> C) (p q : nat) (f : voronoi_face C) : Prop := {
  vf_type : connection f = ptype q;
  vf_normal : x2 (normal f) == x2 (pts q) - x2 (pts p) /\ y2 (normal f) == y2 (pts q) - y2 (pts p);
  vf_centers : exists o1 o2, edge_centers pts s p q o1 o2;
  vf_area : forall o1 o2, edge_centers pts s p q o1 o2 -> area_sq f == dist2_2 o1 o2
}.

(** The cell of [p] has exactly one face for every neighbour. *)
Record cell_of {C} (pts : nat -> point2) (s : triangulation) (ptype : nat -> C) (p : nat) (c : cell C) : Prop := {
  cl_point : delaunay_point c = p;
  cl_index : index c = ptype p;
  cl_center : center c = pts p;
  cl_faces : exists qs, NoDup qs /\ (forall q, In q qs <-> neighbour s p q) /\ Forall2 (is_face pts s ptype p) qs (cell_faces c);
  cl_infinite : is_infinite c = true <-> exists q, (q < 3)%nat /\ neighbour s p q
}.

(** [x] is not closer to any of the other points than to [p]. *)
Definition nearest (pts : nat -> point2) (n p : nat) (x : point2) : Prop :=
  forall q, (q < n)%nat -> dist2_2 x (pts p) <= dist2_2 x (pts q).

(** The volume is the sum of the areas of the triangles that connect the center to the faces: the length of the
    face times half the distance to the neighbour, divided by two. As lengths are kept as squares, the [w] are the roots of
    the products of the squares. *)
Definition volume_of_faces {C} (c : cell C) : Prop :=
  exists ws, Forall2 (fun f w => 0 < w /\ w * w == area_sq f * (1#4) * (x2 (normal f) * x2 (normal f) + y2 (normal f) * y2 (normal f))) (cell_faces c) ws /\
    cell_volume c == (1#2) * fold_right Qplus 0 ws.

(** The faces between two points as seen from both sides. *)
Definition mutual_faces {C} (pts : nat -> point2) (s : triangulation) (ptype : nat -> C) (p q : nat) (c d : cell C) : Prop :=
  exists f g, In f (cell_faces c) /\ In g (cell_faces d) /\ is_face pts s ptype p q f /\ is_face pts s ptype q p g /\
    area_sq f == area_sq g /\ x2 (normal f) == - x2 (normal g) /\ y2 (normal f) == - y2 (normal g).

(** The types of the points of a single rank. *)
Definition own_types {C} (boundary : C) (ids : nat -> C) (p : nat) : C := if (p <? 3)%nat then boundary else ids (p - 3)%nat.
