(** Model of the remapping of temperatures and ionized fractions from another snapshot
    ([/repo/src/arepo_postprocess/remap.rs]).

    Positions and values are rationals. The nearest-neighbour search of the external k-d
    tree is an arbitrary function of the list of positions in the tree. The exchange of
    messages is the function that hands to rank [y] what rank [x] put under [y]
    (see [Exchange_Model] for the exchange itself). Hash maps are association lists.
    [None] is a panic. *)
From Coq Require Import List Arith QArith Qminmax.
From Verif Require Import Decomp_Model FileDist_Model Collective_Model.
Import ListNotations.

Notation pos := (Q * Q * Q)%type.
(** [RemapData], remap.rs 61-64: temperature and ionized hydrogen fraction. *)
Notation value := (Q * Q)%type.
(** [FullRemapData], 67-71. *)
Notation remap_data := (pos * value)%type.
(** [Identified<SearchRequest>], 50-52: entity and position. *)
Notation request := (nat * pos)%type.
(** [SearchReply], 55-58: squared distance and data. *)
Notation reply := (Q * value)%type.
(** One local particle: entity, position, temperature and fraction (135-140). *)
Notation particle := (nat * (pos * value))%type.

(** [squared_euclidean] of the external k-d tree library. *)
Definition sq_dist (p q : pos) : Q :=
  let '(px, py, pz) := p in
  let '(qx, qy, qz) := q in
  ((px - qx) * (px - qx) + (py - qy) * (py - qy) + (pz - qz) * (pz - qz))%Q.

(** [Extent::from_positions], domain/extent.rs 49-67: the smallest box; [None] without
    positions. *)
Definition pmin (p q : pos) : pos :=
  let '(px, py, pz) := p in
  let '(qx, qy, qz) := q in (Qmin px qx, Qmin py qy, Qmin pz qz).
Definition pmax (p q : pos) : pos :=
  let '(px, py, pz) := p in
  let '(qx, qy, qz) := q in (Qmax px qx, Qmax py qy, Qmax pz qz).
Definition from_positions (ps : list pos) : option (pos * pos) :=
  match ps with
  | [] => None
  | p :: ps' => Some (fold_left pmin ps' p, fold_left pmax ps' p)
  end.

(** [Extent::squared_distance_to_pos], domain/extent.rs 316-327. *)
Definition axis_dist (lo hi x : Q) : Q := Qmax (Qmax 0 (lo - x)) (x - hi).
Definition sq_dist_extent (e : pos * pos) (q : pos) : Q :=
  let '((lx, ly, lz), (hx, hy, hz)) := e in
  let '(qx, qy, qz) := q in
  let dx := axis_dist lx hx qx in
  let dy := axis_dist ly hy qy in
  let dz := axis_dist lz hz qz in
  (dx * dx + dy * dy + dz * dz)%Q.

(** [remap_from], 380-383. *)
Definition remap_from (v w : value) : value := (Qmax (fst v) (fst w), Qmax (snd v) (snd w)).

(** [exchange_according_to_domain_decomposition], 278-306, on all ranks: the data that
    rank [y] holds afterwards. [owner] is [into_key] followed by [get_owning_rank]. *)
Definition destination (owner : pos -> nat) (n x : nat) (d : remap_data) : nat :=
  if (n <=? owner (fst d))%nat then x else owner (fst d).
Definition outgoing_data (owner : pos -> nat) (n : nat) (data : list (list remap_data)) (x y : nat)
  : list remap_data :=
  filter (fun d => (destination owner n x d =? y)%nat) (nth x data []).
Definition redistribute (owner : pos -> nat) (n : nat) (data : list (list remap_data)) : list (list remap_data) :=
  map (fun y => concat (map (fun x => outgoing_data owner n data x y) (other_ranks n y))
                ++ outgoing_data owner n data y y)
    (seq 0 n).

Section Remap.
  (** [KdTree::nearest_one]: the index of the result. *)
  Variable nearest : list pos -> pos -> nat.

  (** [get_reply], 266-273. The squared distance is that of the point with the returned
      index. *)
  Definition get_reply (data : list remap_data) (q : pos) : option reply :=
    match nth_error data (nearest (map fst data) q) with
    | Some (p, v) => Some (sq_dist p q, v)
    | None => None
    end.

  Definition reply_to (data : list remap_data) (r : request) : option (nat * reply) :=
    option_map (pair (fst r)) (get_reply data (snd r)).

  (** The requests to one other rank in [get_outgoing_requests], 238-249, with
      [closer_particle_could_exist_on_other_rank] 254-264. *)
  Fixpoint requests_to (extent : pos * pos) (local_map : list (nat * reply)) (chunk : list request)
    : option (list request) :=
    match chunk with
    | [] => Some []
    | r :: chunk' =>
        match hget (fst r) local_map with
        | None => None
        | Some (d, _) =>
            match requests_to extent local_map chunk' with
            | None => None
            | Some l =>
                Some (if Qle_bool d (sq_dist_extent extent (snd r)) then l else r :: l)
            end
        end
    end.

  (** [get_outgoing_requests], 230-252. [extents] has no entry for ranks without data
      ([exchange_extents], 308-317); indexing with such a rank panics. *)
  Definition get_outgoing_requests (extents : list (option (pos * pos))) (n x : nat)
      (local_map : list (nat * reply)) (chunk : list request) : option (list (nat * list request)) :=
    opt_all (fun y =>
      match nth y extents None with
      | None => None
      | Some extent => option_map (pair y) (requests_to extent local_map chunk)
      end) (other_ranks n x).

  (** The loop over the replies, 212-220. *)
  Fixpoint absorb (replies : list (nat * reply)) (m : list (nat * reply)) : option (list (nat * reply)) :=
    match replies with
    | [] => Some m
    | (e, r) :: replies' =>
        match hget e m with
        | None => None
        | Some prev => absorb replies' (if Qle_bool (fst prev) (fst r) then m else hput e r m)
        end
    end.

  (** [self.particles.get_mut(entity).unwrap()] and [remap_from], 222-223. *)
  Fixpoint update_particle (e : nat) (v : value) (ps : list particle) : option (list particle) :=
    match ps with
    | [] => None
    | (e', (p, w)) :: ps' =>
        if (e' =? e)%nat then Some ((e', (p, remap_from w v)) :: ps')
        else option_map (cons (e', (p, w))) (update_particle e v ps')
    end.
  Fixpoint update_particles (m : list (nat * reply)) (ps : list particle) : option (list particle) :=
    match m with
    | [] => Some ps
    | (e, (_, v)) :: m' =>
        match update_particle e v ps with
        | Some ps' => update_particles m' ps'
        | None => None
        end
    end.

  (** What [x] put under [y]. *)
  Definition sent {A} (out : list (list (nat * list A))) (x y : nat) : list A :=
    match hget y (nth x out []) with Some l => l | None => [] end.

  (** [exchange_request_chunk], 196-225, executed by all [n] ranks: rank [x] holds
      [nth x data] and its chunk is [nth x chunks]. *)
  Definition exchange_request_chunk (n : nat) (data : list (list remap_data)) (chunks : list (list request))
      (particles : list (list particle)) : option (list (list particle)) :=
    let extents := map (fun d => from_positions (map fst d)) data in
    match for_all_ranks n (fun x => option_map hcollect (opt_all (reply_to (nth x data [])) (nth x chunks []))) with
    | None => None
    | Some local_maps =>
    match for_all_ranks n (fun x => get_outgoing_requests extents n x (nth x local_maps []) (nth x chunks [])) with
    | None => None
    | Some requests =>
    match for_all_ranks n (fun y =>
            opt_all (fun x => option_map (pair x) (opt_all (reply_to (nth y data [])) (sent requests x y)))
              (other_ranks n y)) with
    | None => None
    | Some replies =>
        for_all_ranks n (fun x =>
          match absorb (concat (map (fun y => sent replies y x) (other_ranks n x))) (nth x local_maps []) with
          | Some m => update_particles m (nth x particles [])
          | None => None
          end)
    end end end.

  Fixpoint rounds (n : nat) (data : list (list remap_data)) (steps : list (list (list request)))
      (particles : list (list particle)) : option (list (list particle)) :=
    match steps with
    | [] => Some particles
    | chunks :: steps' =>
        match exchange_request_chunk n data chunks particles with
        | Some particles' => rounds n data steps' particles'
        | None => None
        end
    end.

  (** [remap], 184-194, on all ranks. *)
  Definition remap (n chunk_size : nat) (data : list (list remap_data)) (particles : list (list particle))
    : option (list (list particle)) :=
    rounds n data (rounds_of chunk_size (map (map (fun p => (fst p, fst (snd p)))) particles)) particles.

  (** [remap_abundances_and_energies_system], 393-429, after the files were read: [data]
      is what every rank read, before the redistribution. *)
  Definition remap_system (owner : pos -> nat) (n chunk_size : nat) (data : list (list remap_data))
      (particles : list (list particle)) : option (list (list particle)) :=
    remap n chunk_size (redistribute owner n data) particles.
End Remap.
