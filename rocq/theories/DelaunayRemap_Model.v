(** The construction of the triangulation of a set of points in the plane: the initial triangle around
    their extent and the rescaled coordinates on which the predicates work. *)
From Coq Require Import List Arith QArith Qminmax.
From Verif Require Import Geometry_Model Delaunay_Model DelaunayGeo_Model.
Import ListNotations.
Local Open Scope Q_scope.

(** [Extent::from_points] of three points, src/extent.rs 55-84, with [TriangleData::extent],
    primitives/triangle.rs 222-224: the least and the largest coordinates. *)
Definition triangle_extent2 (t : triangle2) : point2 * point2 :=
  let least f := Qmin (Qmin (f (t2p1 t)) (f (t2p2 t))) (f (t2p3 t)) in
  let largest f := Qmax (Qmax (f (t2p1 t)) (f (t2p2 t))) (f (t2p3 t)) in
  (P2 (least x2) (least y2), P2 (largest x2) (largest y2)).

(** [remap_point], src/dimension.rs 44-47. The assertion that the point is in the extent is only
    compiled in debug builds. *)
Definition remap2 (min max p : point2) : point2 :=
  P2 (1 + (x2 p - x2 min) * (1 / (x2 max - x2 min))) (1 + (y2 p - y2 min) * (1 / (y2 max - y2 min))).

(** [including_periodic_images], src/extent.rs 31-34. *)
Definition including_periodic_images2 (min max : point2) : point2 * point2 :=
  let dx := x2 max - x2 min in
  let dy := y2 max - y2 min in
  (P2 (x2 min - dx) (y2 min - dy), P2 (x2 max + dx) (y2 max + dy)).

(** The [points] of the triangulation: the corners of the initial triangle of the extent ([all_encompassing],
    delaunay/mod.rs 163-175 with [insert_basic_tetra], impl_2d.rs 193-223), then the points [l] in the order
    of their insertion (their keys; the order is a parameter here). *)
Definition table2 (min max : point2) (l : list point2) (i : nat) : point2 :=
  let t := all_encompassing2 min max in nth i (t2p1 t :: t2p2 t :: t2p3 t :: l) (P2 0 0).
(** [get_remapped_point], delaunay/mod.rs 202-204. *)
Definition remapped_table2 (min max : point2) (l : list point2) (i : nat) : point2 :=
  let (emin, emax) := triangle_extent2 (all_encompassing2 min max) in remap2 emin emax (table2 min max l i).

(** [Triangulation::construct], delaunay/mod.rs 125-138. *)
Definition construct2 (min max : point2) (pop : nat -> list nat -> nat) (l : list point2) : option triangulation :=
  bind all_encompassing_2d (insert_many split2 flip2 (circle2 (remapped_table2 min max l)) (inside2 (remapped_table2 min max l)) pop (length l)).
