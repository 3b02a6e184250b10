(** The initial tetrahedron and the rescaled coordinates of the parallel construction in space. *)
From Coq Require Import List Arith QArith.
From Verif Require Geometry_Model.
From Verif Require Import Box_Model Delaunay_Model DelaunayRemap3_Model Halo_Model HaloGeo_Model.
Import ListNotations.

Definition to_point3 (v : vec3) : Geometry_Model.point3 := Geometry_Model.P3 (x3 v) (y3 v) (z3 v).
Definition of_point3 (p : Geometry_Model.point3) : vec3 := V3 (Geometry_Model.x3 p) (Geometry_Model.y3 p) (Geometry_Model.z3 p).

(** [construct_from_iter], constructor/mod.rs 62-69, with [determine_global_extent], parallel/mod.rs 240-242:
    every rank triangulates in the extent of the periodic images of the box. *)
Definition box_extent3 (box : extent3) : Geometry_Model.point3 * Geometry_Model.point3 :=
  including_periodic_images3 (to_point3 (min3 box)) (to_point3 (max3 box)).
(** The corners of [all_encompassing], delaunay/mod.rs 163-175. *)
Definition box_outer3 (box : extent3) : list vec3 :=
  let (min, max) := box_extent3 box in
  let t := Geometry_Model.all_encompassing3 min max in
  [of_point3 (Geometry_Model.ttp1 t); of_point3 (Geometry_Model.ttp2 t); of_point3 (Geometry_Model.ttp3 t); of_point3 (Geometry_Model.ttp4 t)].
(** [get_remapped_point], delaunay/mod.rs 202-204. *)
Definition box_remap3 (box : extent3) (v : vec3) : Geometry_Model.point3 :=
  let (min, max) := box_extent3 box in
  let (emin, emax) := tetra_extent3 (Geometry_Model.all_encompassing3 min max) in
  remap3 emin emax (to_point3 v).
(** The triangulation of [l] on a single rank that knows all of the points. *)
Definition whole3 (box : extent3) (pop : nat -> list nat -> nat) (l : list vec3) : option triangulation :=
  let (min, max) := box_extent3 box in construct3 min max pop (map to_point3 l).
