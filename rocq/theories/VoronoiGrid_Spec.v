(** The grids that the ranks construct from their Voronoi cells. *)
From Coq Require Import List Arith QArith Permutation Relations.
From Verif Require Geometry_Model Sweep_Model.
From Verif Require Import Geometry_Spec Box_Model Tree_Model Delaunay_Model DelaunayGlobal_Spec Halo_Model Halo_Spec HaloGeo_Model HaloGeo_Spec
  HaloDelaunay_Spec HaloDelaunay_Model Voronoi_Model Voronoi_Spec VoronoiGrid_Model.
Import ListNotations.
Local Open Scope nat_scope.

(** Every rank has inserted its particles in the order [order] into the same initial triangle. *)
Definition starts_in_order2 (ranks : nat) pop (particles order : nat -> list (nat * vec2)) remap outer (w : list (rank_state vec2 wrap2)) : Prop :=
  length w = ranks /\ (forall r, Permutation (order r) (particles r)) /\
  forall r s, nth_error w r = Some s -> exists start, all_encompassing_2d = Some start /\
    initial vec2 wrap2 (insert2 pop remap) start outer (map snd (order r)) = Done s.

(** No two particles or images of particles are at the same position. *)
Definition distinct_images2 (box : extent2) (particles : nat -> list (nat * vec2)) : Prop :=
  forall r x w p r' x' w' p', image_of vec2 wrap2 (images2 box) particles r x w p -> image_of vec2 wrap2 (images2 box) particles r' x' w' p' ->
    same_position p p' -> r = r' /\ x = x' /\ w = w'.

(** How rank [self] refers to the image of kind [w] of particle [id] of rank [rank]. *)
Definition image_type (self rank id : nat) (w : wrap2) : ptype :=
  if is_periodic2 w then if rank =? self then LocalPeriodic wrap2 id w else RemotePeriodic wrap2 id rank w
  else if rank =? self then Local wrap2 id else Remote wrap2 id rank.
(** Without periodic boundaries the images are the boundary. *)
Definition shown_type (periodic : bool) (self rank id : nat) (w : wrap2) : ptype :=
  if is_periodic2 w && negb periodic then Boundary wrap2 else image_type self rank id w.

(** The triangulation [whole] of all images [l]: its points are the corners of the initial triangle, then the images. *)
Definition whole_points (box : extent2) (l : list vec2) : list vec2 := box_outer2 box ++ l.
Definition whole_point (box : extent2) (l : list vec2) (v : nat) : Geometry_Model.point2 := to_point2 (nth v (whole_points box l) (V2 0 0)).
(** [t] is how rank [self] refers to point [v] of the whole. *)
Definition refers_to (box : extent2) particles (l : list vec2) (periodic : bool) (self v : nat) (t : ptype) : Prop :=
  v < 3 /\ t = Boundary wrap2 \/
  3 <= v /\ exists rank id w x, nth_error (whole_points box l) v = Some x /\ image_of vec2 wrap2 (images2 box) particles rank id w x /\
    t = shown_type periodic self rank id w.
(** A cell on rank [self] that is the Voronoi cell of point [p] of the whole: one face for every neighbour in the whole, and the
    volume is that of the cell. *)
Record whole_cell (box : extent2) particles (l : list vec2) (whole : triangulation) (periodic : bool) (self p : nat) (c : grid_cell) : Prop := {
  wc_faces : exists qs, NoDup qs /\ (forall q, In q qs <-> neighbour whole p q) /\
    Forall2 (fun q f => exists t, refers_to box particles l periodic self q t /\ is_face (whole_point box l) whole (fun _ => t) p q f) qs (neighbours c);
  wc_volume : exists ws, Forall2 (fun f w => (0 < w)%Q /\ (w * w == area_sq f * (1#4) * dot2 (normal f) (normal f))%Q) (neighbours c) ws /\
    (volume c == (1#2) * fold_right Qplus 0 ws)%Q
}.

(** The particles repeated in all directions without end. *)
Definition lattice2 (box : extent2) (particles : nat -> list (nat * vec2)) (r : Geometry_Model.point2) : Prop :=
  exists rank id pos k1 k2, In (id, pos) (particles rank) /\
    (Geometry_Model.x2 r == x2 pos + inject_Z k1 * (x2 (max2 box) - x2 (min2 box)))%Q /\
    (Geometry_Model.y2 r == y2 pos + inject_Z k2 * (y2 (max2 box) - y2 (min2 box)))%Q.

(** How the sweep on rank [self] refers to cell [c], if it is seen through a face of the box or not. *)
Definition seen_from (self : nat) (c : nat * nat) (across : bool) : Sweep_Model.nb :=
  if across then if fst c =? self then Sweep_Model.LocalPeriodic c else Sweep_Model.RemotePeriodic c
  else if fst c =? self then Sweep_Model.Local c else Sweep_Model.Remote c.
