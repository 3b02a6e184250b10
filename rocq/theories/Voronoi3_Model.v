(** The Voronoi cells of the points of a triangulation of space ([/repo/src/voronoi/cell.rs],
    [primitives/polygon3d.rs], [triangulation_data.rs]). The conventions and the functions that do not
    depend on the dimension are those of [Voronoi_Model]. Lengths are square roots, so areas and volumes are
    real numbers here. *)
From Coq Require Import List Arith Bool QArith Reals Qreals.
From Verif Require Import Geometry_Model Delaunay_Model Cyclic_Model Voronoi_Model.
Import ListNotations.
Local Open Scope Q_scope.

(** [VoronoiFace], cell.rs 41-47, with [Polygon3d], primitives/polygon3d.rs 5-8, as its data. The normal is
    kept before it is normalised to length one; the area is computed from the polygon, see [face_area]. *)
Record voronoi_face3 (C : Type) : Type := VFace3 { connection3 : C; normal3 : point3; polygon : list point3 }.
(** [Cell], cell.rs 31-39. *)
Record cell3 (C : Type) : Type := Cell3 {
  delaunay_point3 : nat; index3 : C; cell_points3 : list point3; cell_faces3 : list (voronoi_face3 C);
  center3 : point3; is_infinite3 : bool }.
Arguments VFace3 {C}. Arguments connection3 {C}. Arguments normal3 {C}. Arguments polygon {C}.
Arguments Cell3 {C}. Arguments delaunay_point3 {C}. Arguments index3 {C}. Arguments cell_points3 {C}. Arguments cell_faces3 {C}.
Arguments center3 {C}. Arguments is_infinite3 {C}.

Section Voronoi.
  Variable C : Type.
  Variable boundary : C.
  Variable pts : nat -> point3.
  Variable outer : nat -> bool.
  Variable cell_map : nat -> option C.
  (** The order in which the items of a list are iterated after they have been collected into a [HashSet]. *)
  Variable hash_set : list nat -> list nat.
  Variable s : triangulation.

  (** An entry of [tetra_to_voronoi_point_map], triangulation_data.rs 43-47. *)
  Definition voronoi_point3 (t : tetra) : point3 :=
    match points_of t with
    | [a; b; c; d] => circumcenter3 (TT (pts a) (pts b) (pts c) (pts d))
    | _ => P3 0 0 0
    end.
  (** [get_normal], cell.rs 63-71, not normalised. *)
  Definition get_normal3 (p1 p2 : nat) : point3 := sub3 (pts p2) (pts p1).

  (** [tetras_with_both_points], cell.rs 223-231. *)
  Definition tetras_with_both (p1 p2 : nat) : list (nat * tetra) :=
    filter (fun e => existsb (Nat.eqb p2) (points_of (snd e))) (point_to_tetras s p1).
  (** [get_face_polygon_perpendicular_to_line], cell.rs 215-243. The area of a polygon without points panics. *)
  Definition face_perpendicular (p1 p2 : nat) : option (voronoi_face3 C) :=
    do pairs <- arranged tetras_are_neighbours (tetras_with_both p1 p2);
    let points := map (fun ts => voronoi_point3 (snd (fst ts))) pairs in
    do c <- get_particle_type C boundary outer cell_map p2;
    do _ <- hd_error points;
    Some (VFace3 c (get_normal3 p1 p2) points).
  (** [connected_points] in [get_faces], cell.rs 162-169. *)
  Definition connected_points (p1 : nat) : list nat :=
    hash_set (flat_map (fun e => filter (fun p2 => negb (p2 =? p1)%nat) (points_of (snd e))) (point_to_tetras s p1)).
  (** [get_faces], cell.rs 160-174. *)
  Definition get_faces3 (p1 : nat) : option (list (voronoi_face3 C)) :=
    map_option (face_perpendicular p1) (connected_points p1).
  (** [Cell::new], cell.rs 199-212. *)
  Definition new_cell3 (p : nat) : option (cell3 C) :=
    do i <- cell_map p;
    do fs <- get_faces3 p;
    Some (Cell3 p i (map (fun e => voronoi_point3 (snd e)) (point_to_tetras s p)) fs (pts p) (is_infinite_cell outer s p)).
  (** [construct_voronoi], triangulation_data.rs 57-65. *)
  Definition construct_voronoi3 : option (list (cell3 C)) :=
    map_option new_cell3 (filter (fun p => negb (outer p)) (seq 0 (num_points s))).
End Voronoi.

(** [contains], cell.rs 180-184. The polygons have points, see [face_perpendicular]. *)
Definition cell_contains3 {C} (c : cell3 C) (point : point3) : bool :=
  forallb (fun f => Qltb (dot3 (normal3 f) (sub3 point (nth 0 (polygon f) (P3 0 0 0)))) 0) (cell_faces3 c).

(** [DVec3::length]. *)
Definition length3 (v : point3) : R := sqrt (Q2R (dot3 v v)).
Definition sumR (l : list R) : R := fold_right Rplus 0%R l.
(** [Polygon3d::area], polygon3d.rs 11-16. *)
Definition polygon_area (points : list point3) : R :=
  let r := nth 0 points (P3 0 0 0) in
  sumR (map (fun w => (1/2 * length3 (cross3 (sub3 r (fst w)) (sub3 r (snd w))))%R) (periodic_windows_2 points (P3 0 0 0))).
(** The field [area] of a face, cell.rs 240. *)
Definition face_area {C} (f : voronoi_face3 C) : R := polygon_area (polygon f).
(** [pyramid_volume], cell.rs 153-157, with the normalised normal. *)
Definition pyramid_volume (normal p : point3) (points : list point3) : R :=
  let base := polygon_area points in
  let height := Rabs (Q2R (dot3 normal (sub3 p (nth 0 points (P3 0 0 0)))) / length3 normal) in
  (1/3 * base * height)%R.
(** [volume], cell.rs 190-197. *)
Definition cell_volume3 {C} (c : cell3 C) : R :=
  sumR (map (fun f => pyramid_volume (normal3 f) (center3 c) (polygon f)) (cell_faces3 c)).

(** The triangulation of the particles of a single rank, as [is_corner] and [own_cells] in the plane. *)
Definition is_corner3 (p : nat) : bool := (p <? 4)%nat.
Definition own_cells3 {C} (ids : nat -> C) (p : nat) : option C := if is_corner3 p then None else Some (ids (p - 4)%nat).
