(** The import of halo particles with the simulation box, the particle tree and the triangulation of the
    code (src/voronoi/constructor/parallel/mod.rs). *)
From Coq Require Import List Arith QArith.
From Verif Require Geometry_Model.
From Verif Require Import Box_Model Tree_Model Delaunay_Model DelaunayGeo_Model Halo_Model.
Import ListNotations.
Local Open Scope nat_scope.

(** Componentwise minimum and maximum, and [from_positions], domain/extent.rs 49-73. *)
Definition Qmaxb (a b : Q) : Q := if Qle_bool a b then b else a.
Definition min_vec2 (a b : vec2) : vec2 := V2 (Qminb (x2 a) (x2 b)) (Qminb (y2 a) (y2 b)).
Definition max_vec2 (a b : vec2) : vec2 := V2 (Qmaxb (x2 a) (x2 b)) (Qmaxb (y2 a) (y2 b)).
Definition min_vec3 (a b : vec3) : vec3 := V3 (Qminb (x3 a) (x3 b)) (Qminb (y3 a) (y3 b)) (Qminb (z3 a) (z3 b)).
Definition max_vec3 (a b : vec3) : vec3 := V3 (Qmaxb (x3 a) (x3 b)) (Qmaxb (y3 a) (y3 b)) (Qmaxb (z3 a) (z3 b)).
Definition from_positions2 (l : list vec2) : option extent2 :=
  match l with [] => None | p :: l => Some (E2 (fold_left min_vec2 l p) (fold_left max_vec2 l p)) end.
Definition from_positions3 (l : list vec3) : option extent3 :=
  match l with [] => None | p :: l => Some (E3 (fold_left min_vec3 l p) (fold_left max_vec3 l p)) end.

(** [PeriodicWrapType2d], [PeriodicWrapType3d] and [is_periodic], simulation_box.rs 197-246. *)
Definition wrap_type_eqb (a b : wrap_type) : bool :=
  match a, b with NoWrap, NoWrap | Minus, Minus | Plus, Plus => true | _, _ => false end.
Definition wrap2 : Set := (wrap_type * wrap_type)%type.
Definition wrap3 : Set := (wrap_type * wrap_type * wrap_type)%type.
Definition wrap2_eqb (a b : wrap2) : bool := wrap_type_eqb (fst a) (fst b) && wrap_type_eqb (snd a) (snd b).
Definition wrap3_eqb (a b : wrap3) : bool :=
  wrap_type_eqb (fst (fst a)) (fst (fst b)) && wrap_type_eqb (snd (fst a)) (snd (fst b)) && wrap_type_eqb (snd a) (snd b).
Definition is_periodic2 (w : wrap2) : bool := negb (wrap2_eqb w (NoWrap, NoWrap)).
Definition is_periodic3 (w : wrap3) : bool := negb (wrap3_eqb w (NoWrap, NoWrap, NoWrap)).

(** [search.point.distance(p) < search.radius], parallel/mod.rs 71, by the squares. *)
Definition closer2 (c p : vec2) (radius : Q) : bool :=
  Qltb 0 radius && Qltb (length_sq2 (V2 (x2 c - x2 p) (y2 c - y2 p))) (radius * radius).
Definition closer3 (c p : vec3) (radius : Q) : bool :=
  Qltb 0 radius && Qltb (length_sq3 (V3 (x3 c - x3 p) (y3 c - y3 p) (z3 c - z3 p))) (radius * radius).

Section World.
  Variable ranks : nat.
  Variable cfg : config.
  Variables build_fuel search_fuel : nat.
  Variable pop : nat -> list nat -> nat.

  Section Two.
    Variable box : extent2.
    Variable particles : nat -> list (nat * vec2).
    Variable remap : vec2 -> Geometry_Model.point2.
    (** [communicate_extents], domain/mod.rs 92-97: ranks without particles are skipped. *)
    Definition extents2 : list extent2 :=
      flat_map (fun r => match from_positions2 (map snd (particles r)) with Some e => [e] | None => [] end) (seq 0 ranks).
    (** [rank_owns_part_of_search_radius], decomposition.rs 136-150, of [cube_around_sphere],
        domain/extent.rs 130-134. An index out of range would panic; it does not occur when every
        rank has particles. *)
    Definition owns_part2 (rank : nat) (c : vec2) (radius : Q) : bool :=
      match nth_error extents2 rank with
      | Some e => overlap2 box c (V2 (x2 c + radius - (x2 c - radius)) (y2 c + radius - (y2 c - radius))) (center2 e) (sides2 e)
      | None => false
      end.
    (** [iter_particles_in_radius] on the tree of a rank ([construct_quad_tree_system], domain/mod.rs 74-90). *)
    Definition search_tree2 (rank : nat) (c : vec2) (radius : Q) : option (list (nat * vec2)) :=
      match build2 cfg build_fuel (particles rank) box with
      | Some t => search2 box c radius search_fuel t
      | None => None
      end.
    (** [Triangulation::insert]; the predicates use the remapped positions ([remap], any function). *)
    Definition positions2 (l : list vec2) (i : nat) : Geometry_Model.point2 := remap (nth i l (V2 0 0)).
    Definition insert2 (l : list vec2) (s : triangulation) : option (nat * list nat * triangulation) :=
      Delaunay_Model.insert split2 flip2 (circle2 (positions2 l)) (inside2 (positions2 l)) pop s.
  End Two.

  Section Three.
    Variable box : extent3.
    Variable particles : nat -> list (nat * vec3).
    Variable remap : vec3 -> Geometry_Model.point3.
    (** As above; domain/extent.rs 164-168. *)
    Definition extents3 : list extent3 :=
      flat_map (fun r => match from_positions3 (map snd (particles r)) with Some e => [e] | None => [] end) (seq 0 ranks).
    Definition owns_part3 (rank : nat) (c : vec3) (radius : Q) : bool :=
      match nth_error extents3 rank with
      | Some e => overlap3 box c (V3 (x3 c + radius - (x3 c - radius)) (y3 c + radius - (y3 c - radius)) (z3 c + radius - (z3 c - radius)))
                    (center3 e) (sides3 e)
      | None => false
      end.
    Definition search_tree3 (rank : nat) (c : vec3) (radius : Q) : option (list (nat * vec3)) :=
      match build3 cfg build_fuel (particles rank) box with
      | Some t => search3 box c radius search_fuel t
      | None => None
      end.
    Definition positions3 (l : list vec3) (i : nat) : Geometry_Model.point3 := remap (nth i l (V3 0 0 0)).
    Definition insert3 (l : list vec3) (s : triangulation) : option (nat * list nat * triangulation) :=
      Delaunay_Model.insert split3 (flip3 (crossing3 (positions3 l))) (circle3 (positions3 l)) (inside3 (positions3 l)) pop s.
  End Three.

  (** The whole iteration; [circumcircle] and the characteristic length are any functions. *)
  Definition run2 (box : extent2) particles remap circumcircle characteristic_length chunk_size :=
    run vec2 wrap2 wrap2_eqb is_periodic2 (images2 box) closer2 (search_tree2 box particles) (owns_part2 box particles)
      circumcircle (insert2 remap) characteristic_length chunk_size.
  Definition run3 (box : extent3) particles remap circumcircle characteristic_length chunk_size :=
    run vec3 wrap3 wrap3_eqb is_periodic3 (images3 box) closer3 (search_tree3 box particles) (owns_part3 box particles)
      circumcircle (insert3 remap) characteristic_length chunk_size.
End World.
