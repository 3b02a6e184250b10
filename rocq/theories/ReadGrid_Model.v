(** Model of the grid read from a file of connections
    ([/repo/src/arepo_postprocess/read_grid/id_cache.rs] and [mod.rs] beside it).

    Unique ids are natural numbers, a particle id is a pair of rank and index. Hash maps
    are association lists; the order in which a hash set is drained is an arbitrary
    function. The exchange of messages is the function that hands to rank [y] what rank
    [x] put under [y]. Reading the datasets is not modelled, the connections in the file
    are given. [None] is a panic. *)
From Coq Require Import List Arith ZArith QArith.
From Verif Require Import Decomp_Model Collective_Model.
Import ListNotations.

(** [ParticleId], src/particle.rs 21-24: rank and index. *)
Notation pid := (nat * nat)%type.
Notation idmap := (list (nat * pid)).

(** ** The id cache *)

(** [IdCache::is_local], id_cache.rs 44-49. *)
Definition is_local (rank : nat) (m : idmap) (id : nat) : bool :=
  match hget id m with Some p => (fst p =? rank)%nat | None => false end.

(** [HashSet::insert]. *)
Definition set_insert (id : nat) (l : list nat) : list nat :=
  if existsb (Nat.eqb id) l then l else l ++ [id].

(** [add_lookup_request_if_necessary], 86-90. *)
Definition add_lookup_request (rank : nat) (m : idmap) (id : nat) (requests : list nat) : list nat :=
  if is_local rank m id then requests else set_insert id requests.

(** The replies to one rank, 65-73. *)
Fixpoint replies_to (m : idmap) (requests : list nat) : list (nat * pid) :=
  match requests with
  | [] => []
  | id :: l => match hget id m with Some p => (id, p) :: replies_to m l | None => replies_to m l end
  end.

(** [self.map.extend], 78-82. *)
Definition extend (m : idmap) (replies : list (nat * pid)) : idmap :=
  fold_left (fun m r => hput (fst r) (snd r) m) replies m.

(** [exchange_request_chunk], 58-84, on all [n] ranks: every rank sends its chunk to all
    other ranks, answers with what its map holds and then stores the answers. *)
Definition exchange_request_chunk (n : nat) (chunks : list (list nat)) (maps : list idmap) : list idmap :=
  map (fun x => fold_left extend
         (map (fun y => replies_to (nth y maps []) (nth x chunks [])) (other_ranks n x)) (nth x maps []))
    (seq 0 n).

(** [perform_lookup], 51-56, on all ranks. [requests] is what [drain] yields. *)
Definition perform_lookup (n chunk_size : nat) (requests : list (list nat)) (maps : list idmap) : list idmap :=
  fold_left (fun maps chunks => exchange_request_chunk n chunks maps) (rounds_of chunk_size requests) maps.

(** ** Connections *)

Notation vec := (Q * Q * Q)%type.
(** [Face] and [ParticleType], src/sweep/grid/cell.rs 17-23; the periodic variants are
    never constructed here because [get_periodic_wrap_type] panics. *)
Notation face := (Q * vec)%type.
Inductive ptype : Type := Local (p : pid) | Remote (p : pid) | Boundary.

(** [Connection], mod.rs 199-205. *)
Record connection : Type := Connection {
  area : Q; normal : vec; id1 : nat; id2 : nat; periodic1 : bool; periodic2 : bool }.

(** One entry of the file: ids, type, area and normal. *)
Record entry : Type := Entry { e_id1 : nat; e_id2 : nat; e_type : Z; e_area : Q; e_normal : vec }.

(** [periodic_and_boundary_flags_from_bits], 134-138. *)
Definition flags_from_bits (bits : Z) : bool * bool :=
  ((0 <? Z.land bits 1)%Z, (0 <? Z.land bits 2)%Z).

(** [ConnectionType::try_from], 140-160. *)
Definition connection_type (value : Z) : option (bool * bool) :=
  if (value =? -1)%Z then None
  else
    let '(p1, b1) := flags_from_bits (Z.land value (1 + 2)) in
    let '(p2, b2) := flags_from_bits (Z.shiftr (Z.land value (4 + 8)) 2) in
    if negb (b1 || b2 || (p1 && p2)) then Some (p1, p2) else None.

(** The [filter_map] of [read_connection_data], 246-255. *)
Fixpoint read_connections (l : list entry) : list connection :=
  match l with
  | [] => []
  | e :: l' =>
      match connection_type (e_type e) with
      | Some (p1, p2) => Connection (e_area e) (e_normal e) (e_id1 e) (e_id2 e) p1 p2 :: read_connections l'
      | None => read_connections l'
      end
  end.

(** [filter_relevant_connections], 380-390. *)
Definition relevant (rank : nat) (m : idmap) (l : list connection) : list connection :=
  filter (fun c => is_local rank m (id1 c) || is_local rank m (id2 c)) l.

(** [add_lookup_requests], 392-399. *)
Definition lookup_requests (rank : nat) (m : idmap) (l : list connection) : list nat :=
  fold_left (fun rs c => add_lookup_request rank m (id2 c) (add_lookup_request rank m (id1 c) rs)) l [].

(** [get_particle_type], 311-341. [get_periodic_wrap_type], 402-407, is [todo!()]. *)
Definition get_particle_type (rank : nat) (allow_periodic : bool) (m : idmap) (id : nat) (is_periodic : bool) : option ptype :=
  match hget id m with
  | None => None
  | Some p =>
      match (fst p =? rank)%nat, is_periodic with
      | true, false => Some (Local p)
      | true, true => if allow_periodic then None else Some Boundary
      | false, false => Some (Remote p)
      | false, true => if allow_periodic then None else Some Boundary
      end
  end.

(** [ParticleType::is_local], src/sweep/grid/cell.rs 30-32. *)
Definition type_is_local (t : ptype) : bool := match t with Local _ => true | _ => false end.

Definition vopp (v : vec) : vec := let '(x, y, z) := v in (- x, - y, - z)%Q.

(** [get_cell_by_id] and [add_neighbour], 307-309 and 374-378; a cell is its list of
    neighbours. *)
Fixpoint push_at (i : nat) (nb : face * ptype) (cells : list (list (face * ptype))) : option (list (list (face * ptype))) :=
  match cells, i with
  | [], _ => None
  | c :: cells', O => Some ((c ++ [nb]) :: cells')
  | c :: cells', S i' => option_map (cons c) (push_at i' nb cells')
  end.
Definition add_neighbour (index : list (nat * nat)) (id : nat) (f : face) (t : ptype) (cells : list (list (face * ptype)))
  : option (list (list (face * ptype))) :=
  match hget id index with
  | Some i => push_at i (f, t) cells
  | None => None
  end.

(** The body of the loop of [add_connections], 352-369. *)
Definition add_connection (rank : nat) (allow_periodic : bool) (m : idmap) (index : list (nat * nat))
    (c : connection) (cells : list (list (face * ptype))) : option (list (list (face * ptype))) :=
  let face1 := (area c, normal c) in
  let face2 := (area c, vopp (normal c)) in
  match get_particle_type rank allow_periodic m (id1 c) (periodic1 c),
        get_particle_type rank allow_periodic m (id2 c) (periodic2 c) with
  | Some t1, Some t2 =>
      match (if type_is_local t1 then add_neighbour index (id1 c) face2 t2 cells else Some cells) with
      | None => None
      | Some cells1 =>
          if type_is_local t2 then add_neighbour index (id2 c) face1 t1 cells1 else Some cells1
      end
  | _, _ => None
  end.

Fixpoint add_all (rank : nat) (allow_periodic : bool) (m : idmap) (index : list (nat * nat))
    (l : list connection) (cells : list (list (face * ptype))) : option (list (list (face * ptype))) :=
  match l with
  | [] => Some cells
  | c :: l' =>
      match add_connection rank allow_periodic m index c cells with
      | Some cells' => add_all rank allow_periodic m index l' cells'
      | None => None
      end
  end.

Section ReadGrid.
  (** The order in which [HashSet::drain] yields the requests. *)
  Variable drain : list nat -> list nat.

  (** [read_grid_system] 409-437, [Constructor::new] 274-305 and [add_connections]
      343-372, on all ranks. [particles] gives particle id and unique id of the local
      particles of every rank; the result is the cells (in the order of the particles)
      and the haloes of every rank. *)
  Definition read_grid (n chunk_size : nat) (allow_periodic : bool) (particles : list (list (pid * nat)))
      (file : list entry) : option (list (list (list (face * ptype)) * list pid)) :=
    let maps := map (fun ps => hcollect (map (fun p => (snd p, fst p)) ps)) particles in
    let conns := read_connections file in
    let rel x := relevant x (nth x maps []) conns in
    let requests := map (fun x => drain (lookup_requests x (nth x maps []) (rel x))) (seq 0 n) in
    let maps' := perform_lookup n chunk_size requests maps in
    for_all_ranks n (fun x =>
      let ps := nth x particles [] in
      let m := nth x maps' [] in
      let index := hcollect (combine (map snd ps) (seq 0 (length ps))) in
      let haloes := filter (fun p => negb (fst p =? x)%nat) (map snd m) in
      match add_all x allow_periodic m index (rel x) (map (fun _ => []) ps) with
      | Some cells => Some (cells, haloes)
      | None => None
      end).
End ReadGrid.
