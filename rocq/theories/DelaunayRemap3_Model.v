(** The construction of the triangulation of a set of points in space: the initial tetrahedron around
    their extent and the rescaled coordinates on which the predicates work. *)
From Coq Require Import List Arith QArith Qminmax.
From Verif Require Import Geometry_Model Delaunay_Model DelaunayGeo_Model.
Import ListNotations.
Local Open Scope Q_scope.

(** [Extent::from_points] of four points, src/extent.rs 55-84, with [TetrahedronData::extent],
    primitives/tetrahedron.rs 154-156: the least and the largest coordinates. *)
Definition tetra_extent3 (t : tetrahedron) : point3 * point3 :=
  let least f := Qmin (Qmin (Qmin (f (ttp1 t)) (f (ttp2 t))) (f (ttp3 t))) (f (ttp4 t)) in
  let largest f := Qmax (Qmax (Qmax (f (ttp1 t)) (f (ttp2 t))) (f (ttp3 t))) (f (ttp4 t)) in
  (P3 (least x3) (least y3) (least z3), P3 (largest x3) (largest y3) (largest z3)).

(** [remap_point], src/dimension.rs 56-59. The assertion that the point is in the extent is only
    compiled in debug builds. *)
Definition remap3 (min max p : point3) : point3 :=
  P3 (1 + (x3 p - x3 min) * (1 / (x3 max - x3 min))) (1 + (y3 p - y3 min) * (1 / (y3 max - y3 min)))
     (1 + (z3 p - z3 min) * (1 / (z3 max - z3 min))).

(** [including_periodic_images], src/extent.rs 31-34. *)
Definition including_periodic_images3 (min max : point3) : point3 * point3 :=
  let dist := sub3 max min in (sub3 min dist, add3 max dist).

(** The [points] of the triangulation: the corners of the initial tetrahedron of the extent ([all_encompassing],
    delaunay/mod.rs 163-175 with [insert_basic_tetra], impl_3d.rs 402-461), then the points [l] in the order
    of their insertion (their keys; the order is a parameter here). *)
Definition table3 (min max : point3) (l : list point3) (i : nat) : point3 :=
  let t := all_encompassing3 min max in nth i (ttp1 t :: ttp2 t :: ttp3 t :: ttp4 t :: l) (P3 0 0 0).
(** [get_remapped_point], delaunay/mod.rs 202-204. *)
Definition remapped_table3 (min max : point3) (l : list point3) (i : nat) : point3 :=
  let (emin, emax) := tetra_extent3 (all_encompassing3 min max) in remap3 emin emax (table3 min max l i).

(** [Triangulation::construct], delaunay/mod.rs 125-138. *)
Definition construct3 (min max : point3) (pop : nat -> list nat -> nat) (l : list point3) : option triangulation :=
  let pts := remapped_table3 min max l in
  bind all_encompassing_3d (insert_many split3 (flip3 (crossing3 pts)) (circle3 pts) (inside3 pts) pop (length l)).
