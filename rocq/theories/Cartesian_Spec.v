(** What is expected of a cartesian grid; stated in terms of the entities of all
    ranks, without reference to how they are constructed. *)
From Coq Require Import List Arith ZArith QArith Relations.
From Verif Require Import Box_Model Cartesian_Model.
Import ListNotations.
Local Open Scope nat_scope.

(** Componentwise equality of vectors. *)
Definition veq (u v : list Q) : Prop := Forall2 Qeq u v.

(** The unit vector of length [d] along axis [k], times [s]. *)
Definition unit_vec (d k : nat) (s : Q) : list Q := map (fun j => if j =? k then s else 0%Q) (seq 0 d).
(** The normals of the faces of a cell, one per side. *)
Definition side_normals (d : nat) : list (list Q) :=
  flat_map (fun k => [unit_vec d k (-1); unit_vec d k 1]) (seq 0 d).

Definition ptype_id (t : ptype) : option (nat * nat) :=
  match t with
  | Local i | Remote i _ | LocalPeriodic i _ | RemotePeriodic i _ _ => Some i
  | Boundary => None
  end.
Definition is_periodic (t : ptype) : bool :=
  match t with LocalPeriodic _ _ | RemotePeriodic _ _ _ => true | _ => false end.
Definition is_remote (t : ptype) : bool :=
  match t with Remote _ _ | RemotePeriodic _ _ _ => true | _ => false end.
(** Number of box lengths along axis [k] between the neighbour's own position and
    the position at which it is seen. *)
Definition wraps (t : ptype) (k : nat) : Q :=
  match t with
  | LocalPeriodic _ w | RemotePeriodic _ _ w => as_sign (nth k w NoWrap)
  | _ => 0%Q
  end.
Definition rank_field_ok (t : ptype) : Prop :=
  match t with Remote i r | RemotePeriodic i r _ => r = fst i | _ => True end.

Definition locals (l : list entity) : list entity :=
  filter (fun e => match halo_of e with None => true | Some _ => false end) l.
Definition halos (l : list entity) : list entity :=
  filter (fun e => match halo_of e with None => false | Some _ => true end) l.

(** The entities of all ranks make up one consistent grid of dimension [d], with
    spacing [h k] along axis [k], in a box with sides [b k]. [world r] are the
    entities of rank [r]. *)
Definition mutual (d : nat) (b h : nat -> Q) (world : nat -> list entity) : Prop :=
  (** Each face towards a cell is matched: the neighbour is a local cell of the rank
      named by its id; it is classified as remote if and only if that is another
      rank; it lies one spacing away along the normal, up to the box lengths given by
      the wrap type; and it has a face with opposite normal and the same area back to
      the cell, periodic if and only if this one is, with opposite wrap type. *)
  forall r e f t i, In e (locals (world r)) -> In (f, t) (neighbours (e_cell e)) ->
    ptype_id t = Some i ->
    rank_field_ok t /\ (is_remote t = true <-> fst i <> r) /\
    exists e', In e' (locals (world (fst i))) /\ e_id e' = i
    /\ (forall k, k < d -> (nth k (e_pos e') 0 == nth k (e_pos e) 0 + nth k (normal f) 0 * h k - wraps t k * b k)%Q)
    /\ exists f' t', In (f', t') (neighbours (e_cell e')) /\ ptype_id t' = Some (e_id e)
         /\ veq (normal f') (map Qopp (normal f)) /\ area f' = area f
         /\ is_periodic t' = is_periodic t /\ forall k, k < d -> (wraps t' k == - wraps t k)%Q.

(** Upwind relation for direction [dir] between ids of cells of the world: a face of
    the second cell which points upwind leads to the first, without crossing the
    periodic boundary. *)
Definition upwind_of (world : nat -> list entity) (dir : list Q) (i j : nat * nat) : Prop :=
  exists r e f t, In e (locals (world r)) /\ e_id e = j /\ In (f, t) (neighbours (e_cell e))
  /\ points_upwind f dir = true /\ ptype_id t = Some i /\ is_periodic t = false.

(** The points of the regular grid with [floor (side / cell_size)] points per side. *)
Definition grid_point (sides : list Q) (cell_size : Q) (x : list Q) : Prop :=
  length x = length sides /\ exists p : list Z, length p = length sides
  /\ forall k, k < length sides ->
       let n := Qround.Qfloor (nth k sides 0 / cell_size)%Q in
       (0 <= nth k p 0 < n)%Z /\ (nth k x 0 == inject_Z (nth k p 0%Z) * (nth k sides 0 / inject_Z n))%Q.
