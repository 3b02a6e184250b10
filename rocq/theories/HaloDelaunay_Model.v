(** The initial triangle and the rescaled coordinates of the parallel construction in the plane. *)
From Coq Require Import List Arith QArith.
From Verif Require Geometry_Model.
From Verif Require Import Box_Model Delaunay_Model DelaunayRemap_Model Halo_Model HaloGeo_Model.
Import ListNotations.

Definition to_point2 (v : vec2) : Geometry_Model.point2 := Geometry_Model.P2 (x2 v) (y2 v).
Definition of_point2 (p : Geometry_Model.point2) : vec2 := V2 (Geometry_Model.x2 p) (Geometry_Model.y2 p).

(** [construct_from_iter], constructor/mod.rs 62-69, with [determine_global_extent], parallel/mod.rs 240-242:
    every rank triangulates in the extent of the periodic images of the box. *)
Definition box_extent2 (box : extent2) : Geometry_Model.point2 * Geometry_Model.point2 :=
  including_periodic_images2 (to_point2 (min2 box)) (to_point2 (max2 box)).
(** The corners of [all_encompassing], delaunay/mod.rs 163-175. *)
Definition box_outer2 (box : extent2) : list vec2 :=
  let (min, max) := box_extent2 box in
  let t := Geometry_Model.all_encompassing2 min max in
  [of_point2 (Geometry_Model.t2p1 t); of_point2 (Geometry_Model.t2p2 t); of_point2 (Geometry_Model.t2p3 t)].
(** [get_remapped_point], delaunay/mod.rs 202-204. *)
Definition box_remap2 (box : extent2) (v : vec2) : Geometry_Model.point2 :=
  let (min, max) := box_extent2 box in
  let (emin, emax) := triangle_extent2 (Geometry_Model.all_encompassing2 min max) in
  remap2 emin emax (to_point2 v).
(** The triangulation of [l] on a single rank that knows all of the points. *)
Definition whole2 (box : extent2) (pop : nat -> list nat -> nat) (l : list vec2) : option triangulation :=
  let (min, max) := box_extent2 box in construct2 min max pop (map to_point2 l).
