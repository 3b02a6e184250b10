(** The Voronoi cells of the points of a triangulation of the plane
    ([/repo/src/voronoi/cell.rs], [triangulation_data.rs], [constructor/mod.rs]).

    Points are given by their index; [pts] are their original coordinates
    ([get_original_point]). The maps of [TriangulationData] (triangulation_data.rs 18-23)
    are the functions from which they are filled. [None] is a panic. *)
From Coq Require Import List Arith Bool QArith Qabs.
From Verif Require Import Geometry_Model Delaunay_Model Cyclic_Model.
Import ListNotations.
Local Open Scope Q_scope.

(** [get_common_face_with], delaunay/dimension.rs 72-76. *)
Definition get_common_face_with (t u : tetra) : option nat :=
  option_map face (find (fun f => existsb (fun f2 => (face f =? face f2)%nat) (map snd u)) (map snd t)).

(** [other_point], primitives/line.rs 29-37. *)
Definition other_point (line : list nat) (p : nat) : option nat :=
  match line with
  | [a; b] => if (p =? a)%nat then Some b else if (p =? b)%nat then Some a else None
  | _ => None
  end.

(** The entry of [point_to_tetra_map] for point [p], triangulation_data.rs 81-98. The tetras are
    kept with their index. *)
Definition point_to_tetras (s : triangulation) (p : nat) : list (nat * tetra) :=
  flat_map (fun e => map (fun _ => e) (filter (Nat.eqb p) (points_of (snd e)))) (tetras s).

Definition no_tetra : nat * tetra := (0%nat, []).
(** [arrange_cyclic_by] on items instead of their indices. *)
Definition arranged (related : tetra -> tetra -> bool) (items : list (nat * tetra)) : option (list ((nat * tetra) * (nat * tetra))) :=
  option_map (map (fun ij => (nth (fst ij) items no_tetra, nth (snd ij) items no_tetra)))
    (arrange_cyclic_by (fun i j => related (snd (nth i items no_tetra)) (snd (nth j items no_tetra))) (length items)).

Fixpoint map_option {A B} (f : A -> option B) (l : list A) : option (list B) :=
  match l with
  | [] => Some []
  | a :: l' => do b <- f a; do bs <- map_option f l'; Some (b :: bs)
  end.

(** [tetras_are_neighbours], cell.rs 74-80, with [get_common_face], 53-61. *)
Definition tetras_are_neighbours (t u : tetra) : bool := match get_common_face_with t u with Some _ => true | None => false end.

(** [VoronoiFace], cell.rs 41-47. The normal is kept before it is normalised to length one, and the
    area (a length in the plane) is kept as its square. *)
Record voronoi_face (C : Type) : Type := VFace { connection : C; normal : point2; area_sq : Q }.
(** [Cell], cell.rs 31-39. *)
Record cell (C : Type) : Type := Cell {
  delaunay_point : nat; index : C; cell_points : list point2; cell_faces : list (voronoi_face C);
  center : point2; is_infinite : bool }.
Arguments VFace {C}. Arguments connection {C}. Arguments normal {C}. Arguments area_sq {C}.
Arguments Cell {C}. Arguments delaunay_point {C}. Arguments index {C}. Arguments cell_points {C}. Arguments cell_faces {C}.
Arguments center {C}. Arguments is_infinite {C}.

Section Voronoi.
  (** [ParticleType] with its value for the boundary. *)
  Variable C : Type.
  Variable boundary : C.
  Variable pts : nat -> point2.
  (** [point_kinds] is [Outer], and [point_to_cell_map]. *)
  Variable outer : nat -> bool.
  Variable cell_map : nat -> option C.
  Variable s : triangulation.

  (** An entry of [tetra_to_voronoi_point_map], triangulation_data.rs 43-47. *)
  Definition voronoi_point (t : tetra) : point2 :=
    match points_of t with
    | [a; b; c] => circumcenter2 (T2 (pts a) (pts b) (pts c))
    | _ => P2 0 0
    end.
  (** [get_particle_type], triangulation_data.rs 73-78. *)
  Definition get_particle_type (p : nat) : option C := if outer p then Some boundary else cell_map p.
  (** [is_infinite_cell], triangulation_data.rs 30-37. *)
  Definition is_infinite_cell (p : nat) : bool :=
    existsb (fun t => existsb outer (points_of (snd t))) (point_to_tetras s p).

  (** [get_normal], cell.rs 63-71, not normalised. *)
  Definition get_normal (p1 p2 : nat) : point2 := P2 (x2 (pts p2) - x2 (pts p1)) (y2 (pts p2) - y2 (pts p1)).
  (** [distance] squared. *)
  Definition distance_sq (a b : point2) : Q := (x2 a - x2 b) * (x2 a - x2 b) + (y2 a - y2 b) * (y2 a - y2 b).

  (** The closure in [get_faces], cell.rs 91-104. *)
  Definition face_between (p : nat) (ts : (nat * tetra) * (nat * tetra)) : option (voronoi_face C) :=
    let (t1, t2) := ts in
    do f <- get_common_face_with (snd t1) (snd t2);
    do line <- arena_get (faces s) f;
    do p2 <- other_point line p;
    do c <- get_particle_type p2;
    Some (VFace c (get_normal p p2) (distance_sq (voronoi_point (snd t1)) (voronoi_point (snd t2)))).
  (** [get_faces], cell.rs 88-106. *)
  Definition get_faces (p : nat) : option (list (voronoi_face C)) :=
    do pairs <- arranged tetras_are_neighbours (point_to_tetras s p);
    map_option (face_between p) pairs.
  (** [Cell::new], cell.rs 137-150. *)
  Definition new_cell (p : nat) : option (cell C) :=
    do pairs <- arranged tetras_are_neighbours (point_to_tetras s p);
    do i <- cell_map p;
    do fs <- get_faces p;
    Some (Cell p i (map (fun ts => voronoi_point (snd (fst ts))) pairs) fs (pts p) (is_infinite_cell p)).
  (** [construct_voronoi], triangulation_data.rs 57-65: the cells of all points that are not
      outer ([iter_non_boundary_points], delaunay/mod.rs 225-230). *)
  Definition construct_voronoi : option (list (cell C)) :=
    map_option new_cell (filter (fun p => negb (outer p)) (seq 0 (num_points s))).
End Voronoi.

(** [sign], cell.rs 49-51. *)
Definition sign (p1 p2 p3 : point2) : Q := (x2 p1 - x2 p3) * (y2 p2 - y2 p3) - (x2 p2 - x2 p3) * (y2 p1 - y2 p3).
(** [point_windows], cell.rs 82-84. *)
Definition point_windows {C} (c : cell C) : list (point2 * point2) := periodic_windows_2 (cell_points c) (P2 0 0).
Definition Qltb (a b : Q) : bool := negb (Qle_bool b a).
(** [contains], cell.rs 112-123. *)
Definition cell_contains {C} (c : cell C) (point : point2) : bool :=
  let signs := map (fun w => sign point (fst w) (snd w)) (point_windows c) in
  negb (existsb (fun v => Qltb v 0) signs && existsb (fun v => Qltb 0 v) signs).
(** [volume], cell.rs 129-135. *)
Definition cell_volume {C} (c : cell C) : Q :=
  (1#2) * Qabs (fold_right Qplus 0 (map (fun w => x2 (fst w) * y2 (snd w) - x2 (snd w) * y2 (fst w)) (point_windows c))).

(** The triangulation of the particles of a single rank: the first three points are the corners of the initial triangle, the
    others are the particles in the order of their insertion ([construct_from_iter], constructor/mod.rs 52-82, with
    [Triangulation::construct]). [ids] are their types. *)
Definition is_corner (p : nat) : bool := (p <? 3)%nat.
Definition own_cells {C} (ids : nat -> C) (p : nat) : option C := if is_corner p then None else Some (ids (p - 3)%nat).
