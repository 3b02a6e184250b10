(** Model of the construction of cartesian grids
    ([/repo/src/sweep/grid/cartesian.rs], [/repo/src/sweep/grid/cell.rs]).

    Vectors are lists of components, so that one model covers the variants of the
    code for two and three dimensions (feature "2d"). Lengths are exact rationals,
    integer positions and indices are unbounded, ranks are natural numbers. A panic
    is [None]. *)
From Coq Require Import List Arith ZArith QArith Qround Qabs.
From Verif Require Import Box_Model.
Import ListNotations.
Local Open Scope nat_scope.

(** [IntegerPosition], cartesian.rs 77-83. *)
Notation ipos := (list Z) (only parsing).
(** [ParticleId], particle.rs: rank and index. *)
Notation pid := (nat * nat)%type (only parsing).

(** [ParticleType], cell.rs 17-24, with [RemoteNeighbour], [PeriodicNeighbour] and
    [RemotePeriodicNeighbour], cell.rs 72-88. *)
Inductive ptype : Type :=
| Local (id : pid)
| Remote (id : pid) (rank : nat)
| Boundary
| LocalPeriodic (id : pid) (w : list wrap_type)
| RemotePeriodic (id : pid) (rank : nat) (w : list wrap_type).

(** [Face], cell.rs 118-122. *)
Record face : Type := Face { area : Q; normal : list Q }.
(** [Cell], cell.rs 90-95. *)
Record cell : Type := Cell { neighbours : list (face * ptype); size : Q; volume : Q }.

(** [points_upwind], [points_downwind], cell.rs 124-132; the dependency's
    [is_negative], [is_positive] are read as [< 0], [> 0]. *)
Fixpoint dot (u v : list Q) : Q :=
  match u, v with
  | a :: u', b :: v' => a * b + dot u' v'
  | _, _ => 0
  end%Q.
Definition points_upwind (f : face) (dir : list Q) : bool := Qltb (dot (normal f) dir) 0.
Definition points_downwind (f : face) (dir : list Q) : bool := Qltb 0 (dot (normal f) dir).

Fixpoint map2 {A B C : Type} (f : A -> B -> C) (l : list A) (m : list B) : list C :=
  match l, m with
  | a :: l', b :: m' => f a b :: map2 f l' m'
  | _, _ => []
  end.
Fixpoint mapM {A B : Type} (f : A -> option B) (l : list A) : option (list B) :=
  match l with
  | [] => Some []
  | a :: l' => match f a, mapM f l' with Some b, Some m => Some (b :: m) | _, _ => None end
  end.

(** [contained], cartesian.rs 86-100. *)
Definition contained (p dims : ipos) : bool :=
  forallb (fun b => b) (map2 (fun v n => (0 <=? v)%Z && (v <? n)%Z) p dims).

(** [wrap_component], cartesian.rs 103-111. *)
Definition wrap_comp (v mx : Z) : Z * wrap_type :=
  if (mx <=? v)%Z then ((v - mx)%Z, Plus) else if (v <? 0)%Z then ((v + mx)%Z, Minus) else (v, NoWrap).
(** [wrapped], cartesian.rs 102-138. *)
Definition wrapped (p dims : ipos) : list wrap_type * ipos :=
  (map snd (map2 wrap_comp p dims), map fst (map2 wrap_comp p dims)).

(** [iter_all_contained], cartesian.rs 178-190: the components run through [0..n],
    the last one fastest. *)
Definition zrange (n : Z) : list Z := map Z.of_nat (seq 0 (Z.to_nat n)).
Fixpoint all_contained (dims : ipos) : list ipos :=
  match dims with
  | [] => [[]]
  | n :: rest => flat_map (fun v => map (cons v) (all_contained rest)) (zrange n)
  end.

(** [iter_neighbours], cartesian.rs 192-218: first the two neighbours along x, then
    along y, then along z. *)
Fixpoint add_at (p : ipos) (k : nat) (s : Z) : ipos :=
  match p, k with
  | [], _ => []
  | v :: p', O => (v + s)%Z :: p'
  | v :: p', S k' => v :: add_at p' k' s
  end.
Definition iter_neighbours (p : ipos) : list ipos :=
  flat_map (fun k => [add_at p k (-1); add_at p k 1]) (seq 0 (length p)).

(** [normalize] of the dependency: division by the Euclidean length. The only use is
    for the difference of two points which differ in one coordinate, for which the
    Euclidean length is the sum of the absolute values. *)
Definition norm1 (v : list Q) : Q := fold_right (fun a s => Qabs a + s)%Q 0%Q v.
Definition normalize (v : list Q) : list Q := map (fun a => a / norm1 v)%Q v.

(** Look up in a hash map with integer positions as keys. *)
Definition ipos_dec : forall p q : ipos, {p = q} + {p <> q} := list_eq_dec Z.eq_dec.
Definition lookup {A : Type} (m : list (ipos * A)) (p : ipos) : option A :=
  option_map snd (find (fun e => if ipos_dec (fst e) p then true else false) m).

(** An entity spawned by [spawn_local_cells]: a local particle ([None]) or a halo of
    the given rank, with position, cell and id. *)
Record entity : Type := Entity { halo_of : option nat; e_pos : list Q; e_cell : cell; e_id : pid }.

(** Stable sort by the first component, cartesian.rs 365. *)
Fixpoint insert_by_x (e : ipos * cell) (l : list (ipos * cell)) : list (ipos * cell) :=
  match l with
  | [] => [e]
  | e' :: l' => if (hd 0%Z (fst e) <=? hd 0%Z (fst e'))%Z then e :: l else e' :: insert_by_x e l'
  end.
Definition sort_by_x (l : list (ipos * cell)) : list (ipos * cell) := fold_right insert_by_x [] l.

Section Constructor.
  (** Fields of [GridConstructor], cartesian.rs 221-230: side lengths of the box,
      cell size, function from position to rank, and whether the box is periodic. *)
  Variable sides : list Q.
  Variable cell_size : Q.
  Variable rank_function : list Q -> nat.
  Variable allow_periodic : bool.

  (** [num_cells], cartesian.rs 42-48 with [from_position_and_side_length],
      140-156; [floor() as i32] without the limit of i32. *)
  Definition num_cells : ipos := map (fun s => Qfloor (s / cell_size)) sides.

  (** [to_pos], cartesian.rs 158-176 and 349-351. *)
  Definition to_pos (p : ipos) : list Q :=
    map2 (fun s vn => s * inject_Z (fst vn) / inject_Z (snd vn))%Q sides (map2 pair p num_cells).

  (** [get_rank], cartesian.rs 353-356. *)
  Definition get_rank (p : ipos) : nat := rank_function (to_pos p).

  (** [face_area] and [volume], cartesian.rs 56-75. *)
  Definition face_area : Q := (cell_size ^ Z.of_nat (length sides - 1))%Q.
  Definition cell_volume : Q := (cell_size ^ Z.of_nat (length sides))%Q.

  (** The loop assigning ids, cartesian.rs 254-269, with [next_index], 391-395. The
      keys of the hash map are distinct. *)
  Fixpoint assign_ids (l : list ipos) (indices : nat -> nat) : list (ipos * pid) :=
    match l with
    | [] => []
    | p :: l' =>
        let r := get_rank p in
        (p, (r, indices r)) :: assign_ids l' (fun x => if x =? r then S (indices r) else indices x)
    end.
  Definition ids : list (ipos * pid) := assign_ids (all_contained num_cells) (fun _ => 0).

  (** [get_neighbour], cartesian.rs 315-347. *)
  Definition get_neighbour (nbr : ipos) (particle_rank : nat) : option ptype :=
    let is_periodic := negb (contained nbr num_cells) in
    let '(w, wr) := wrapped nbr num_cells in
    let p := if is_periodic then wr else nbr in
    match lookup ids p with
    | None => None
    | Some id =>
        let nr := get_rank p in
        if fst id =? nr then
          let is_local := particle_rank =? nr in
          Some (if is_periodic
                then if allow_periodic
                     then if is_local then LocalPeriodic id w else RemotePeriodic id nr w
                     else Boundary
                else if is_local then Local id else Remote id nr)
        else None
    end.

  (** One cell, cartesian.rs 290-312. *)
  Definition make_cell (p : ipos) : option cell :=
    match mapM (fun nbr =>
                  option_map (fun t => (Face face_area (normalize (map2 Qminus (to_pos nbr) (to_pos p))), t))
                             (get_neighbour nbr (get_rank p)))
               (iter_neighbours p) with
    | Some nbs => Some (Cell nbs cell_size cell_volume)
    | None => None
    end.

  (** [construct_neighbours], cartesian.rs 289-313. *)
  Definition construct_neighbours : option (list (ipos * cell)) :=
    mapM (fun p => option_map (pair p) (make_cell p)) (all_contained num_cells).

  Definition mentions (self : nat) (t : ptype) : bool :=
    match t with Remote _ r | RemotePeriodic _ r _ => r =? self | _ => false end.

  (** [spawn_local_cells], cartesian.rs 358-385, on rank [self]. *)
  Fixpoint spawn_cells (self : nat) (l : list (ipos * cell)) : option (list entity) :=
    match l with
    | [] => Some []
    | (p, c) :: l' =>
        match lookup ids p, spawn_cells self l' with
        | Some id, Some rest =>
            let rank := get_rank p in
            Some (if rank =? self then Entity None (to_pos p) c id :: rest
                  else if existsb (fun ft => mentions self (snd ft)) (neighbours c)
                       then Entity (Some rank) (to_pos p) c id :: rest
                       else rest)
        | _, _ => None
        end
    end.

  (** [construct], cartesian.rs 233-273, on rank [self]. [drain] is the order in which
      the hash map gives its entries, an arbitrary permutation. *)
  Definition construct (drain : list (ipos * cell) -> list (ipos * cell)) (self : nat) : option (list entity) :=
    match construct_neighbours with
    | None => None
    | Some cells => spawn_cells self (sort_by_x (drain cells))
    end.
End Constructor.

(** [rank_function] of [init_cartesian_grid_system], cartesian.rs 408-412; [round]
    after [floor] does nothing. *)
Definition slab_rank (sides : list Q) (world_size : nat) (pos : list Q) : nat :=
  Z.to_nat (Qfloor ((hd 0 pos / hd 0 sides) * inject_Z (Z.of_nat world_size))%Q).
