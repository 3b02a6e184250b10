(** The tetrahedra of the ranks and the empty circumspheres of all particles with their periodic images. *)
From Coq Require Import List Arith QArith Permutation.
From Verif Require Geometry_Model.
From Verif Require Import Geometry_Spec Box_Model Tree_Model Delaunay_Model DelaunayGeo_Model DelaunayGlobal3_Spec
  Halo_Model Halo_Spec HaloGeo_Model HaloGeo_Spec.
Import ListNotations.
Local Open Scope nat_scope.

(** Every rank has inserted its particles into the same initial tetrahedron. *)
Definition starts_from3 (ranks : nat) pop (particles : nat -> list (nat * vec3)) remap outer (w : list (rank_state vec3 wrap3)) : Prop :=
  length w = ranks /\ forall r s, nth_error w r = Some s -> exists start local,
    all_encompassing_3d = Some start /\ Permutation local (map snd (particles r)) /\
    initial vec3 wrap3 (insert3 pop remap) start outer local = Done s.

(** The sphere that is searched for a tetrahedron, enlarged by the safety factor, contains the
    circumsphere of its remapped corners with its surface. *)
Definition covers_spheres3 (remap : vec3 -> Geometry_Model.point3) (circumcircle : list vec3 -> vec3 * Q) : Prop :=
  forall a b c d o p center radius, let t := Geometry_Model.TT (remap a) (remap b) (remap c) (remap d) in
  ~ (volume6 t == 0)%Q -> circumscribed3 t o -> circumcircle [a; b; c; d] = (center, radius) ->
  (dist2_3 o (remap p) <= dist2_3 o (remap a))%Q ->
  closer3 center p (radius * search_safety_factor) = true.

Definition same_position3 (p q : vec3) : Prop := (x3 p == x3 q)%Q /\ (y3 p == y3 q)%Q /\ (z3 p == z3 q)%Q.

(** What a complete triangulation would be made of: the corners of the initial tetrahedron and the
    images, including the particles themselves, of all particles of all ranks. *)
Definition site3 (box : extent3) (particles : nat -> list (nat * vec3)) (outer : list vec3) (y : vec3) : Prop :=
  In y outer \/ exists rank id w, image_of vec3 wrap3 (images3 box) particles rank id w y.
Definition all_images3 (box : extent3) (particles : nat -> list (nat * vec3)) (l : list vec3) : Prop :=
  forall p, In p l <-> exists rank id w, image_of vec3 wrap3 (images3 box) particles rank id w p.

(** A tetrahedron, with corners in any order, on or in whose circumsphere there is no site but its corners. *)
Definition delaunay_tetra (remap : vec3 -> Geometry_Model.point3) (site : vec3 -> Prop) (a b c d : vec3) : Prop :=
  let t := Geometry_Model.TT (remap a) (remap b) (remap c) (remap d) in
  ~ (volume6 t == 0)%Q /\ exists o, circumscribed3 t o /\ forall y, site y ->
    (dist2_3 o (remap a) < dist2_3 o (remap y))%Q \/ same_position3 y a \/ same_position3 y b \/ same_position3 y c \/ same_position3 y d.

(** The tetrahedra around point [p] of [s] are those that are Delaunay with respect to all sites. *)
Definition tetras_around (remap : vec3 -> Geometry_Model.point3) (site : vec3 -> Prop) (pos : list vec3) (s : triangulation) (p : nat) (x : vec3) : Prop :=
  let at_ v y := exists y', nth_error pos v = Some y' /\ same_position3 y' y in
  (forall b c d, is_tetra s p b c d -> exists y z w, site y /\ site z /\ site w /\ at_ b y /\ at_ c z /\ at_ d w /\ delaunay_tetra remap site x y z w) /\
  (forall y z w, site y -> site z -> site w -> delaunay_tetra remap site x y z w -> exists b c d, is_tetra s p b c d /\ at_ b y /\ at_ c z /\ at_ d w).

(** The tetrahedra around point [p] of [s] and those around point [p'] of [s'] have the same corners. *)
Definition same_tetras_around (pos : list vec3) (s : triangulation) (p : nat) (pos' : list vec3) (s' : triangulation) (p' : nat) : Prop :=
  let same v v' := exists x x', nth_error pos v = Some x /\ nth_error pos' v' = Some x' /\ same_position3 x x' in
  (forall b c d, is_tetra s p b c d -> exists b' c' d', is_tetra s' p' b' c' d' /\ same b b' /\ same c c' /\ same d d') /\
  (forall b' c' d', is_tetra s' p' b' c' d' -> exists b c d, is_tetra s p b c d /\ same b b' /\ same c c' /\ same d d').
