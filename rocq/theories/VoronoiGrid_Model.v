(** The grid of the sweep that is made from the Voronoi cells of the ranks, in the plane
    ([/repo/src/voronoi/constructor/mod.rs], [parallel/plugin.rs]). *)
From Coq Require Import List Arith Bool QArith Qcanon.
From Verif Require Geometry_Model Sweep_Model.
From Verif Require Import Box_Model Delaunay_Model Halo_Model HaloGeo_Model HaloDelaunay_Model Voronoi_Model.
Import ListNotations.
Local Open Scope nat_scope.

Definition ptype : Type := particle_type wrap2.

(** The map in [construct_from_iter], constructor/mod.rs 70-78: the local particles [local], in the order in which they
    are inserted, are the points after the corners of the initial triangle; the haloes have been entered
    with their points. No key and no point is entered twice (see VoronoiGrid_Proofs), so the map is the list. *)
Definition point_map (local : list (nat * vec2)) (s : rank_state vec2 wrap2) : list (ptype * nat) :=
  combine (map (fun x => Local wrap2 (fst x)) local) (seq 3 (length local)) ++ haloes vec2 wrap2 s.
(** [get_by_right] of the map, used in [get_particle_type], triangulation_data.rs 73-78. *)
Definition cell_of_point (m : list (ptype * nat)) (p : nat) : option ptype := option_map fst (find (fun e => snd e =? p) m).
(** The [point_kinds] and [get_original_point] of the triangulation of a rank. *)
Definition is_outer (s : rank_state vec2 wrap2) (p : nat) : bool :=
  match nth_error (kinds vec2 wrap2 s) p with Some Outer => true | _ => false end.
Definition original_point (s : rank_state vec2 wrap2) (p : nat) : Geometry_Model.point2 := to_point2 (nth p (points vec2 wrap2 s) (V2 0 0)).
(** [iter_voronoi_cells], constructor/mod.rs 100-102. *)
Definition rank_cells (local : list (nat * vec2)) (s : rank_state vec2 wrap2) : option (list (cell ptype)) :=
  construct_voronoi ptype (Boundary wrap2) (original_point s) (is_outer s) (cell_of_point (point_map local s)) (Halo_Model.tri vec2 wrap2 s).

(** [map_ptype], constructor/mod.rs 125-135. *)
Definition map_ptype (t : ptype) (periodic : bool) : ptype :=
  if periodic then t
  else match t with
       | LocalPeriodic _ _ _ => Boundary wrap2
       | RemotePeriodic _ _ _ _ => Boundary wrap2
       | x => x
       end.

(** [grid::Cell], sweep/grid/cell.rs 84-89, without the size. *)
Record grid_cell : Type := GridCell { neighbours : list (voronoi_face ptype); volume : Q }.

(** [sweep_grid], constructor/mod.rs 138-169. *)
Definition sweep_grid (local : list (nat * vec2)) (s : rank_state vec2 wrap2) (periodic : bool) : option (list (ptype * grid_cell)) :=
  do cells <- rank_cells local s;
  map_option (fun c =>
    do t <- get_particle_type ptype (Boundary wrap2) (is_outer s) (cell_of_point (point_map local s)) (delaunay_point c);
    Some (map_ptype t periodic,
          GridCell (map (fun f => VFace (map_ptype (connection f) periodic) (normal f) (area_sq f)) (cell_faces c)) (cell_volume c))) cells.

(** What [construct_grid_system] adds to the entities of a rank, plugin.rs 91-123: the cells of the local particles (by index), and
    the haloes with a local neighbour (rank and index). The entity of a local particle is found: the
    ids come from the query that fills the map. *)
Record rank_grid : Type := RankGrid { local_cells : list (nat * grid_cell); halo_ids : list (nat * nat) }.
Definition is_local (t : ptype) : bool := match t with Local _ _ => true | _ => false end.
Definition add_halo (c : grid_cell) (rank id : nat) : list (nat * nat) :=
  if existsb (fun f => is_local (connection f)) (neighbours c) then [(rank, id)] else [].
Definition construct_grid (local : list (nat * vec2)) (s : rank_state vec2 wrap2) (periodic : bool) : option rank_grid :=
  do g <- sweep_grid local s periodic;
  Some (RankGrid
    (flat_map (fun e => match fst e with Local _ id => [(id, snd e)] | _ => [] end) g)
    (flat_map (fun e => match fst e with
                        | Remote _ id rank => add_halo (snd e) rank id
                        | RemotePeriodic _ id rank _ => add_halo (snd e) rank id
                        | _ => []
                        end) g)).

(** The same type in the model of the sweep, on rank [self]. *)
Definition sweep_nb (self : nat) (t : ptype) : Sweep_Model.nb :=
  match t with
  | Local _ i => Sweep_Model.Local (self, i)
  | Remote _ i r => Sweep_Model.Remote (r, i)
  | Boundary _ => Sweep_Model.Boundary
  | LocalPeriodic _ i _ => Sweep_Model.LocalPeriodic (self, i)
  | RemotePeriodic _ i r _ => Sweep_Model.RemotePeriodic (r, i)
  end.
Definition dot2 (a b : Geometry_Model.point2) : Q :=
  (Geometry_Model.x2 a * Geometry_Model.x2 b + Geometry_Model.y2 a * Geometry_Model.y2 b)%Q.
(** The area, and the products of the normal with the directions, sweep/grid/cell.rs 124-132. [root] is the square
    root (any function): the area is the root of its square, and the normal is divided by its length. *)
Definition sweep_face (root : Qc -> Qc) (self : nat) (dirs : list Geometry_Model.point2) (f : voronoi_face ptype) : Sweep_Model.face :=
  Sweep_Model.mkFace (root (Q2Qc (area_sq f)))
    (fun d => (Q2Qc (dot2 (normal f) (nth d dirs (Geometry_Model.P2 0 0))) / root (Q2Qc (dot2 (normal f) (normal f))))%Qc)
    (sweep_nb self (connection f)).
(** The situation in which the sweep runs, from the grids of all ranks (sweep/mod.rs 640-690): the cells of the local
    particles, and levels of remote cells for the haloes. *)
Definition sweep_config (root : Qc -> Qc) (world : nat -> rank_grid) (n : nat) (dirs : list Geometry_Model.point2) (batch : nat)
    (source : nat * nat -> Qc) (lev : nat * nat -> nat) (sweeps : list nat)
    (resp : nat * nat -> list Qc -> Qc -> Qc) (chemup : nat * nat -> list Qc -> Qc -> list Qc) : Sweep_Model.config :=
  Sweep_Model.mkConfig n
    (flat_map (fun r => map (fun e => (r, fst e)) (local_cells (world r))) (seq 0 n))
    (fun c => match find (fun e => fst e =? snd c) (local_cells (world (fst c))) with
              | Some e => map (sweep_face root (fst c) dirs) (neighbours (snd e))
              | None => []
              end)
    (length dirs) batch source lev
    (fun r p => if existsb (Sweep_Model.pid_eqb p) (halo_ids (world r)) then Some (lev p) else None)
    sweeps resp chemup.
