(** The grid of the sweep that is made from the Voronoi cells of the ranks, in space
    ([/repo/src/voronoi/constructor/mod.rs], [parallel/plugin.rs]). The functions are those of [VoronoiGrid_Model];
    their source does not depend on the dimension. *)
From Coq Require Import List Arith Bool QArith Qcanon Reals.
From Verif Require Geometry_Model Sweep_Model.
From Verif Require Import Box_Model Delaunay_Model Halo_Model HaloGeo_Model HaloDelaunay3_Model Voronoi_Model Voronoi3_Model.
Import ListNotations.
Local Open Scope nat_scope.

Definition ptype3 : Type := particle_type wrap3.

(** The map in [construct_from_iter], constructor/mod.rs 70-78: the local particles [local], in the order in which they
    are inserted, are the points after the corners of the initial tetrahedron; the haloes have been entered
    with their points. No key and no point is entered twice (see VoronoiGrid3_Proofs), so the map is the list. *)
Definition point_map3 (local : list (nat * vec3)) (s : rank_state vec3 wrap3) : list (ptype3 * nat) :=
  combine (map (fun x => Local wrap3 (fst x)) local) (seq 4 (length local)) ++ haloes vec3 wrap3 s.
(** [get_by_right] of the map, used in [get_particle_type], triangulation_data.rs 73-78. *)
Definition cell_of_point3 (m : list (ptype3 * nat)) (p : nat) : option ptype3 := option_map fst (find (fun e => snd e =? p) m).
(** The [point_kinds] and [get_original_point] of the triangulation of a rank. *)
Definition is_outer3 (s : rank_state vec3 wrap3) (p : nat) : bool :=
  match nth_error (kinds vec3 wrap3 s) p with Some Outer => true | _ => false end.
Definition original_point3 (s : rank_state vec3 wrap3) (p : nat) : Geometry_Model.point3 := to_point3 (nth p (points vec3 wrap3 s) (V3 0 0 0)).
(** [iter_voronoi_cells], constructor/mod.rs 100-102. *)
Definition rank_cells3 (hash_set : list nat -> list nat) (local : list (nat * vec3)) (s : rank_state vec3 wrap3) : option (list (cell3 ptype3)) :=
  construct_voronoi3 ptype3 (Boundary wrap3) (original_point3 s) (is_outer3 s) (cell_of_point3 (point_map3 local s)) hash_set (Halo_Model.tri vec3 wrap3 s).

(** [map_ptype], constructor/mod.rs 125-135. *)
Definition map_ptype3 (t : ptype3) (periodic : bool) : ptype3 :=
  if periodic then t
  else match t with
       | LocalPeriodic _ _ _ => Boundary wrap3
       | RemotePeriodic _ _ _ _ => Boundary wrap3
       | x => x
       end.

(** [grid::Cell], sweep/grid/cell.rs 84-89, without the size. *)
Record grid_cell3 : Type := GridCell3 { neighbours3 : list (voronoi_face3 ptype3); volume3 : R }.

(** [sweep_grid], constructor/mod.rs 138-169. *)
Definition sweep_grid3 (hash_set : list nat -> list nat) (local : list (nat * vec3)) (s : rank_state vec3 wrap3) (periodic : bool) : option (list (ptype3 * grid_cell3)) :=
  do cells <- rank_cells3 hash_set local s;
  map_option (fun c =>
    do t <- get_particle_type ptype3 (Boundary wrap3) (is_outer3 s) (cell_of_point3 (point_map3 local s)) (delaunay_point3 c);
    Some (map_ptype3 t periodic,
          GridCell3 (map (fun f => VFace3 (map_ptype3 (connection3 f) periodic) (normal3 f) (polygon f)) (cell_faces3 c)) (cell_volume3 c))) cells.

(** What [construct_grid_system] adds to the entities of a rank, plugin.rs 91-123: the cells of the local particles (by index), and
    the haloes with a local neighbour (rank and index). *)
Record rank_grid3 : Type := RankGrid3 { local_cells3 : list (nat * grid_cell3); halo_ids3 : list (nat * nat) }.
Definition is_local3 (t : ptype3) : bool := match t with Local _ _ => true | _ => false end.
Definition add_halo3 (c : grid_cell3) (rank id : nat) : list (nat * nat) :=
  if existsb (fun f => is_local3 (connection3 f)) (neighbours3 c) then [(rank, id)] else [].
Definition construct_grid3 (hash_set : list nat -> list nat) (local : list (nat * vec3)) (s : rank_state vec3 wrap3) (periodic : bool) : option rank_grid3 :=
  do g <- sweep_grid3 hash_set local s periodic;
  Some (RankGrid3
    (flat_map (fun e => match fst e with Local _ id => [(id, snd e)] | _ => [] end) g)
    (flat_map (fun e => match fst e with
                        | Remote _ id rank => add_halo3 (snd e) rank id
                        | RemotePeriodic _ id rank _ => add_halo3 (snd e) rank id
                        | _ => []
                        end) g)).

(** The same type in the model of the sweep, on rank [self]. *)
Definition sweep_nb3 (self : nat) (t : ptype3) : Sweep_Model.nb :=
  match t with
  | Local _ i => Sweep_Model.Local (self, i)
  | Remote _ i r => Sweep_Model.Remote (r, i)
  | Boundary _ => Sweep_Model.Boundary
  | LocalPeriodic _ i _ => Sweep_Model.LocalPeriodic (self, i)
  | RemotePeriodic _ i r _ => Sweep_Model.RemotePeriodic (r, i)
  end.
(** The area, and the products of the normal with the directions, sweep/grid/cell.rs 124-132. The sweep computes with rational
    numbers: [round] turns the area and the length of the normal into one (any function that keeps positive numbers positive). *)
Definition sweep_face3 (round : R -> Qc) (self : nat) (dirs : list Geometry_Model.point3) (f : voronoi_face3 ptype3) : Sweep_Model.face :=
  Sweep_Model.mkFace (round (face_area f))
    (fun d => (Q2Qc (Geometry_Model.dot3 (normal3 f) (nth d dirs (Geometry_Model.P3 0 0 0))) / round (length3 (normal3 f)))%Qc)
    (sweep_nb3 self (connection3 f)).
(** The situation in which the sweep runs, from the grids of all ranks (sweep/mod.rs 640-690): the cells of the local
    particles, and levels of remote cells for the haloes. *)
Definition sweep_config3 (round : R -> Qc) (world : nat -> rank_grid3) (n : nat) (dirs : list Geometry_Model.point3) (batch : nat)
    (source : nat * nat -> Qc) (lev : nat * nat -> nat) (sweeps : list nat)
    (resp : nat * nat -> list Qc -> Qc -> Qc) (chemup : nat * nat -> list Qc -> Qc -> list Qc) : Sweep_Model.config :=
  Sweep_Model.mkConfig n
    (flat_map (fun r => map (fun e => (r, fst e)) (local_cells3 (world r))) (seq 0 n))
    (fun c => match find (fun e => fst e =? snd c) (local_cells3 (world (fst c))) with
              | Some e => map (sweep_face3 round (fst c) dirs) (neighbours3 (snd e))
              | None => []
              end)
    (length dirs) batch source lev
    (fun r p => if existsb (Sweep_Model.pid_eqb p) (halo_ids3 (world r)) then Some (lev p) else None)
    sweeps resp chemup.
