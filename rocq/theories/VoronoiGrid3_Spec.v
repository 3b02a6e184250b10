(** The grids that the ranks construct from their Voronoi cells in space. *)
From Coq Require Import List Arith ZArith QArith Permutation Reals.
From Verif Require Geometry_Model.
From Verif Require Import Geometry_Spec Box_Model Tree_Model Delaunay_Model DelaunayGlobal3_Spec Halo_Model Halo_Spec HaloGeo_Model HaloGeo_Spec
  HaloDelaunay3_Spec HaloDelaunay3_Model Voronoi3_Model Voronoi3_Spec VoronoiGrid3_Model.
Import ListNotations.
Local Open Scope nat_scope.

(** Every rank has inserted its particles in the order [order] into the same initial tetrahedron. *)
Definition starts_in_order3 (ranks : nat) pop (particles order : nat -> list (nat * vec3)) remap outer (w : list (rank_state vec3 wrap3)) : Prop :=
  length w = ranks /\ (forall r, Permutation (order r) (particles r)) /\
  forall r s, nth_error w r = Some s -> exists start, all_encompassing_3d = Some start /\
    initial vec3 wrap3 (insert3 pop remap) start outer (map snd (order r)) = Done s.

(** No two particles or images of particles are at the same position. *)
Definition distinct_images3 (box : extent3) (particles : nat -> list (nat * vec3)) : Prop :=
  forall r x w p r' x' w' p', image_of vec3 wrap3 (images3 box) particles r x w p -> image_of vec3 wrap3 (images3 box) particles r' x' w' p' ->
    same_position3 p p' -> r = r' /\ x = x' /\ w = w'.

(** How rank [self] refers to the image of kind [w] of particle [id] of rank [rank]. *)
Definition image_type3 (self rank id : nat) (w : wrap3) : ptype3 :=
  if is_periodic3 w then if rank =? self then LocalPeriodic wrap3 id w else RemotePeriodic wrap3 id rank w
  else if rank =? self then Local wrap3 id else Remote wrap3 id rank.
(** Without periodic boundaries the images are the boundary. *)
Definition shown_type3 (periodic : bool) (self rank id : nat) (w : wrap3) : ptype3 :=
  if is_periodic3 w && negb periodic then Boundary wrap3 else image_type3 self rank id w.

(** The coordinates in which the ranks triangulate are those of the simulation, moved and scaled by the same factor in all directions. *)
Definition similar3 (remap : vec3 -> Geometry_Model.point3) : Prop :=
  exists (f : Geometry_Model.point3 -> Geometry_Model.point3) k cx cy cz, (0 < k)%Q /\ (forall v, remap v = f (to_point3 v)) /\
    forall p, (Geometry_Model.x3 (f p) == k * Geometry_Model.x3 p + cx)%Q /\ (Geometry_Model.y3 (f p) == k * Geometry_Model.y3 p + cy)%Q /\
      (Geometry_Model.z3 (f p) == k * Geometry_Model.z3 p + cz)%Q.
(** Four corners in the order of the initial tetrahedron. *)
Definition starts_with3 (remap : vec3 -> Geometry_Model.point3) (outer : list vec3) : Prop :=
  length outer = 4 /\ (0 < volume6 (shape3 (positions3 remap outer) 0 1 2 3))%Q.
(** No point in the box or within half a side of it is closer to a corner of the initial tetrahedron than half the diagonal of the box. *)
Definition far_outer3 (box : extent3) (outer : list vec3) : Prop := forall v o, In v outer ->
  let near a lo hi := (lo - (1#2) * (hi - lo) <= a <= hi + (1#2) * (hi - lo))%Q in
  near (Geometry_Model.x3 o) (x3 (min3 box)) (x3 (max3 box)) -> near (Geometry_Model.y3 o) (y3 (min3 box)) (y3 (max3 box)) ->
  near (Geometry_Model.z3 o) (z3 (min3 box)) (z3 (max3 box)) ->
  ((1#4) * dist2_3 (to_point3 (min3 box)) (to_point3 (max3 box)) < dist2_3 o (to_point3 v))%Q.

(** The points of the whole are the corners [outer] of the initial tetrahedron and all images of all particles.
    [t] is how rank [self] refers to the point [y] of the whole. *)
Definition refers_to3 (box : extent3) particles (outer : list vec3) (periodic : bool) (self : nat) (y : vec3) (t : ptype3) : Prop :=
  In y outer /\ t = Boundary wrap3 \/
  exists rank id w, image_of vec3 wrap3 (images3 box) particles rank id w y /\ t = shown_type3 periodic self rank id w.
(** Two points of the whole are neighbours if they are corners of a tetrahedron with an empty circumsphere. *)
Definition neighbours_in_whole (site : vec3 -> Prop) (x y : vec3) : Prop :=
  exists z w, site z /\ site w /\ delaunay_tetra to_point3 site x y z w.
(** The face between [x] and [y]: perpendicular to the line between them, a convex polygon, and its corners are the centers of
    the empty circumspheres of the tetrahedra with the corners [x] and [y]. *)
Record face_between {C} (site : vec3 -> Prop) (x y : vec3) (f : voronoi_face3 C) : Prop := {
  fb_normal : (Geometry_Model.x3 (normal3 f) == x3 y - x3 x)%Q /\ (Geometry_Model.y3 (normal3 f) == y3 y - y3 x)%Q /\ (Geometry_Model.z3 (normal3 f) == z3 y - z3 x)%Q;
  fb_corner : forall v, In v (polygon f) -> exists z w, site z /\ site w /\ delaunay_tetra to_point3 site x y z w /\
    circumscribed3 (Geometry_Model.TT (to_point3 x) (to_point3 y) (to_point3 z) (to_point3 w)) v;
  fb_corners : forall z w, site z -> site w -> delaunay_tetra to_point3 site x y z w -> exists v, In v (polygon f) /\
    circumscribed3 (Geometry_Model.TT (to_point3 x) (to_point3 y) (to_point3 z) (to_point3 w)) v;
  fb_proper : proper_face f
}.
(** A cell on rank [self] that is the Voronoi cell of [x] in the whole: one face for every neighbour, and the volume is the sum over
    the faces of area times half the distance to the neighbour, divided by three. *)
Record whole_cell3 (box : extent3) particles (outer : list vec3) (periodic : bool) (self : nat) (x : vec3) (c : grid_cell3) : Prop := {
  wc3_faces : let site := site3 box particles outer in
    exists ys, ForallOrdPairs (fun y y' => ~ same_position3 y y') ys /\
    (forall y, site y -> neighbours_in_whole site x y <-> exists y', In y' ys /\ same_position3 y' y) /\
    Forall2 (fun y f => site y /\ refers_to3 box particles outer periodic self y (connection3 f) /\ face_between site x y f) ys (neighbours3 c);
  wc3_volume : (volume3 c = sumR (map (fun f => 1/3 * face_area f * (1/2 * length3 (normal3 f))) (neighbours3 c)))%R /\ (0 < volume3 c)%R
}.

(** The particles repeated in all directions without end. *)
Definition lattice3 (box : extent3) (particles : nat -> list (nat * vec3)) (r : Geometry_Model.point3) : Prop :=
  exists rank id pos k1 k2 k3, In (id, pos) (particles rank) /\
    (Geometry_Model.x3 r == x3 pos + inject_Z k1 * (x3 (max3 box) - x3 (min3 box)))%Q /\
    (Geometry_Model.y3 r == y3 pos + inject_Z k2 * (y3 (max3 box) - y3 (min3 box)))%Q /\
    (Geometry_Model.z3 r == z3 pos + inject_Z k3 * (z3 (max3 box) - z3 (min3 box)))%Q.
