(** The triangulations of the ranks and the triangulation of all particles with their periodic images. *)
From Coq Require Import List Arith QArith Permutation.
From Verif Require Geometry_Model.
From Verif Require Import Geometry_Spec Box_Model Tree_Model Delaunay_Model Delaunay_Spec DelaunayGeo_Model DelaunayGlobal_Spec
  Halo_Model Halo_Spec HaloGeo_Model HaloGeo_Spec.
Import ListNotations.
Local Open Scope nat_scope.

(** Every rank has inserted its particles into the same initial triangle. *)
Definition starts_from2 (ranks : nat) pop (particles : nat -> list (nat * vec2)) remap outer (w : list (rank_state vec2 wrap2)) : Prop :=
  length w = ranks /\ forall r s, nth_error w r = Some s -> exists start local,
    all_encompassing_2d = Some start /\ Permutation local (map snd (particles r)) /\
    initial vec2 wrap2 (insert2 pop remap) start outer local = Done s.

(** The circle that is searched for a triangle, enlarged by the safety factor, contains the interior of
    the circumcircle of its remapped corners. *)
Definition covers_circles2 (remap : vec2 -> Geometry_Model.point2) (circumcircle : list vec2 -> vec2 * Q) : Prop :=
  forall a b c o p center radius, let t := Geometry_Model.T2 (remap a) (remap b) (remap c) in
  (0 < area2 t)%Q -> circumscribed2 t o -> circumcircle [a; b; c] = (center, radius) ->
  (dist2_2 o (remap p) < dist2_2 o (remap a))%Q ->
  closer2 center p (radius * search_safety_factor) = true.

(** The images, including the particles themselves, of all particles. *)
Definition all_images2 (box : extent2) (particles : nat -> list (nat * vec2)) (l : list vec2) : Prop :=
  forall p, In p l <-> exists rank id w, image_of vec2 wrap2 (images2 box) particles rank id w p.

Definition same_position (p q : vec2) : Prop := (x2 p == x2 q)%Q /\ (y2 p == y2 q)%Q.

(** The triangles around point [p] of [s] and those around point [p'] of [s'] have the same corners. *)
Definition same_triangles_around (pos : list vec2) (s : triangulation) (p : nat) (pos' : list vec2) (s' : triangulation) (p' : nat) : Prop :=
  let same v v' := exists x x', nth_error pos v = Some x /\ nth_error pos' v' = Some x' /\ same_position x x' in
  (forall b c, is_triangle s p b c -> exists b' c', is_triangle s' p' b' c' /\ same b b' /\ same c c') /\
  (forall b' c', is_triangle s' p' b' c' -> exists b c, is_triangle s p b c /\ same b b' /\ same c c').
