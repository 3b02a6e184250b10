(** The import of halo particles during the construction of the grid on several ranks
    (src/voronoi/constructor/halo_iteration.rs, halo_cache.rs, parallel/mod.rs). All ranks go through
    the same sequence of collective operations, so one round of all ranks is one step. *)
From Coq Require Import List Arith QArith.
From Verif Require Import Delaunay_Model.
Import ListNotations.
Local Open Scope nat_scope.

(** [PointKind], delaunay/mod.rs 38-43. *)
Inductive point_kind : Type := Inner | Outer | Halo (rank : nat).
Definition is_inner (k : point_kind) : bool := match k with Inner => true | _ => false end.

(** The ways in which a round can end the program:
    - [NoInnerPoint]: the [unwrap] in [SearchData::new], halo_iteration.rs 81-84;
    - [NoImage]: the [unwrap] in [find_wrapped_point], parallel/mod.rs 72;
    - [TwoImages]: the assertion there, 73-76;
    - [DuplicateHalo]: the assertion in [iterate], halo_iteration.rs 190;
    - [InsertFailed]: a panic inside [Triangulation::insert];
    - [SearchFailed]: the tree search of the model has run out of fuel;
    - [DeadTetra]: [unwrap] in [get_original_tetra_circumcircle], delaunay/mod.rs 211. *)
Inductive panic : Set := NoInnerPoint | NoImage | TwoImages | DuplicateHalo | InsertFailed | SearchFailed | DeadTetra.
Inductive outcome (A : Type) : Type := Done (a : A) | Panic (why : panic).
Arguments Done {A} a.
Arguments Panic {A} why.
Definition andthen {A B} (x : outcome A) (f : A -> outcome B) : outcome B :=
  match x with Done a => f a | Panic w => Panic w end.

(** A fallible operation on every element of a list, with and without a state. *)
Fixpoint map_outcome {A B} (f : A -> outcome B) (l : list A) : outcome (list B) :=
  match l with
  | [] => Done []
  | a :: l => andthen (f a) (fun b => andthen (map_outcome f l) (fun r => Done (b :: r)))
  end.
Fixpoint map_state {A B S} (f : A -> S -> outcome (B * S)) (l : list A) (s : S) : outcome (list B * S) :=
  match l with
  | [] => Done ([], s)
  | a :: l => andthen (f a s) (fun '(b, s) => andthen (map_state f l s) (fun '(r, s) => Done (b :: r, s)))
  end.
Fixpoint fold_outcome {A S} (f : S -> A -> outcome S) (l : list A) (s : S) : outcome S :=
  match l with
  | [] => Done s
  | a :: l => andthen (f s a) (fold_outcome f l)
  end.

(** [SEARCH_SAFETY_FACTOR], [SEARCH_RADIUS_INCREASE_FACTOR] and [SEARCH_CHUNK_SIZE], halo_iteration.rs 31, 37, 43.
    The chunk size is a parameter below. *)
Definition search_safety_factor : Q := 1001 # 1000.
Definition search_radius_increase_factor : Q := 16 # 10.
Definition Qminb (a b : Q) : Q := if Qle_bool a b then a else b.

Section Halo.
  (** Positions and kinds of periodic images. *)
  Variables P W : Type.
  Variable wrap_eqb : W -> W -> bool.
  Variable is_periodic : W -> bool.
  (** [SimulationBox::iter_periodic_images], simulation_box.rs 133-162. *)
  Variable images : P -> list (W * P).
  (** [point.distance(other) < radius]. *)
  Variable closer : P -> P -> Q -> bool.
  (** The quad tree of a rank: [iter_particles_in_radius], quadtree/radius_search.rs 47-55. *)
  Variable search_tree : nat -> P -> Q -> option (list (nat * P)).
  (** [rank_owns_part_of_search_radius], domain/decomposition.rs 136-150, of the cube around the sphere. *)
  Variable owns_part : nat -> P -> Q -> bool.
  (** [get_original_tetra_circumcircle], delaunay/mod.rs 210-217, from the positions of the corners. *)
  Variable circumcircle : list P -> P * Q.
  (** [Triangulation::insert], delaunay/mod.rs 278-288, given the positions of all points, of which the last
      one is the new one. *)
  Variable insert : list P -> triangulation -> option (nat * list nat * triangulation).
  Variable characteristic_length : Q.
  Variable chunk_size : nat.

  (** [SearchData] and [SearchResult], halo_iteration.rs 50-54 and 90-95. *)
  Record search : Type := Search { s_point : P; s_radius : Q }.
  Record result : Type := Result { r_point : P; r_id : nat; r_wrap : W }.

  (** [ParticleType], sweep/grid/cell.rs 17-23. *)
  Inductive particle_type : Type :=
  | Local (id : nat)
  | Remote (id rank : nat)
  | Boundary
  | LocalPeriodic (id : nat) (w : W)
  | RemotePeriodic (id rank : nat) (w : W).
  Definition particle_type_eqb (a b : particle_type) : bool :=
    match a, b with
    | Local i, Local j => i =? j
    | Remote i r, Remote j q => (i =? j) && (r =? q)
    | Boundary, Boundary => true
    | LocalPeriodic i w, LocalPeriodic j v => (i =? j) && wrap_eqb w v
    | RemotePeriodic i r w, RemotePeriodic j q v => (i =? j) && (r =? q) && wrap_eqb w v
    | _, _ => false
    end.

  (** [HaloIteration], halo_iteration.rs 125-131, together with the cache of [ParallelSearch]
      (parallel/mod.rs 58; [HaloCache], halo_cache.rs 9-12) of the same rank. [points] and [kinds] are
      the [points] and [point_kinds] of the triangulation by index. *)
  Record rank_state : Type := {
    tri : triangulation;
    points : list P;
    kinds : list point_kind;
    haloes : list (particle_type * nat);
    undecided : list (nat * option Q);
    cache : list (nat * (nat * W))
  }.
  Definition set_undecided (s : rank_state) (u : list (nat * option Q)) : rank_state :=
    {| tri := tri s; points := points s; kinds := kinds s; haloes := haloes s; undecided := u; cache := cache s |}.
  Definition set_cache (s : rank_state) (c : list (nat * (nat * W))) : rank_state :=
    {| tri := tri s; points := points s; kinds := kinds s; haloes := haloes s; undecided := undecided s; cache := c |}.

  (** [tetra_should_be_checked], halo_iteration.rs 259-269. Every point has a kind (it is entered by [insert]). *)
  Definition inner_point (s : rank_state) (p : nat) : bool := is_inner (nth p (kinds s) Outer).
  Definition should_be_checked (s : rank_state) (i : nat) : bool :=
    match arena_get (tetras (tri s)) i with
    | Some t => existsb (inner_point s) (points_of t)
    | None => false
    end.

  (** [Triangulation::get_original_tetra_circumcircle] of tetra [t]. *)
  Definition corner_positions (s : rank_state) (t : tetra) : list P :=
    flat_map (fun p => match nth_error (points s) p with Some x => [x] | None => [] end) (points_of t).

  (** [SearchData::new], halo_iteration.rs 60-88. *)
  Definition new_search (s : rank_state) (t : tetra) (radius : option Q) : outcome search :=
    let (center, r) := circumcircle (corner_positions s t) in
    let max_necessary := Qmult r search_safety_factor in
    let radius := match radius with
                  | Some x => Qminb (Qmult x search_radius_increase_factor) max_necessary
                  | None => Qminb max_necessary characteristic_length
                  end in
    if Qle_bool max_necessary radius then Done (Search center radius)
    else match find (inner_point s) (points_of t) with
         | Some p => match nth_error (points s) p with
                     | Some x => Done (Search x radius)
                     | None => Panic NoInnerPoint
                     end
         | None => Panic NoInnerPoint
         end.
  (** [search_radius_large_enough], halo_iteration.rs 113-115. *)
  Definition large_enough (s : rank_state) (t : tetra) (radius : Q) : bool :=
    Qle_bool (Qmult (snd (circumcircle (corner_positions s t))) search_safety_factor) radius.

  (** [get_radius_search_data], halo_iteration.rs 206-238. *)
  Definition search_entry (s : rank_state) (e : nat * option Q) : outcome (search * (nat * option Q * bool)) :=
    match arena_get (tetras (tri s)) (fst e) with
    | None => Panic DeadTetra
    | Some t => andthen (new_search s t (snd e)) (fun d =>
                  Done (d, ((fst e, Some (s_radius d)), large_enough s t (s_radius d))))
    end.
  Definition get_radius_search_data (s : rank_state) : outcome (list search * rank_state) :=
    let n := Nat.min chunk_size (length (undecided s)) in
    let live := filter (fun e => arena_contains (tetras (tri s)) (fst e)) (firstn n (undecided s)) in
    andthen (map_outcome (search_entry s) live) (fun l =>
      Done (map fst l,
            set_undecided s (skipn n (undecided s) ++ map fst (filter (fun x => negb (snd x)) (map snd l))))).

  (** [find_wrapped_point], parallel/mod.rs 63-78. *)
  Definition find_wrapped_point (d : search) (x : P) : outcome (W * P) :=
    match filter (fun wp => closer (s_point d) (snd wp) (s_radius d)) (images x) with
    | [] => Panic NoImage
    | [wp] => Done wp
    | _ => Panic TwoImages
    end.

  (** [HaloCache::get_new_haloes], halo_cache.rs 15-28. *)
  Definition cached (c : list (nat * (nat * W))) (rank id : nat) (w : W) : bool :=
    existsb (fun e => (fst e =? rank) && (fst (snd e) =? id) && wrap_eqb (snd (snd e)) w) c.
  Fixpoint get_new_haloes (rank : nat) (l : list result) (c : list (nat * (nat * W)))
    : list result * list (nat * (nat * W)) :=
    match l with
    | [] => ([], c)
    | x :: l =>
        if cached c rank (r_id x) (r_wrap x) then get_new_haloes rank l c
        else let (r, c) := get_new_haloes rank l ((rank, (r_id x, r_wrap x)) :: c) in (x :: r, c)
    end.

  (** [get_haloes_from_search], parallel/mod.rs 158-174, on rank [self] for a search of [rank]. *)
  Definition get_haloes_from_search (self rank : nat) (d : search) (c : list (nat * (nat * W)))
    : outcome (list result * list (nat * (nat * W))) :=
    match search_tree self (s_point d) (s_radius d) with
    | None => Panic SearchFailed
    | Some particles =>
        andthen (map_outcome (fun x : nat * P =>
                   andthen (find_wrapped_point d (snd x)) (fun '(w, p) => Done (Result p (fst x) w))) particles)
          (fun l => Done (get_new_haloes rank l c))
    end.
  (** The searches of one rank one after the other. *)
  Definition get_haloes_from_searches (self rank : nat) (l : list search) (c : list (nat * (nat * W)))
    : outcome (list result * list (nat * (nat * W))) :=
    andthen (map_state (get_haloes_from_search self rank) l c) (fun '(r, c) => Done (concat r, c)).

  (** [get_local_periodic_haloes], parallel/mod.rs 143-157. *)
  Definition local_periodic_haloes (self : nat) (l : list search) (c : list (nat * (nat * W)))
    : outcome (list result * list (nat * (nat * W))) :=
    andthen (get_haloes_from_searches self self l c) (fun '(r, c) => Done (filter (fun x => is_periodic (r_wrap x)) r, c)).

  (** [get_outgoing_searches], parallel/mod.rs 105-127: the searches that are sent to rank [to]. *)
  Definition outgoing_searches (to : nat) (l : list search) : list search :=
    filter (fun d => owns_part to (s_point d) (s_radius d)) l.

  (** [get_outgoing_results], parallel/mod.rs 128-142, on rank [self], given the searches of every rank. *)
  Definition outgoing_results (self : nat) (searches : list (list search)) (c : list (nat * (nat * W)))
    : outcome (list (list result) * list (nat * (nat * W))) :=
    map_state (fun (x : nat * list search) c =>
                 if fst x =? self then Done ([], c)
                 else get_haloes_from_searches self (fst x) (outgoing_searches self (snd x)) c)
      (combine (seq 0 (length searches)) searches) c.

  (** The type under which a halo is entered, halo_iteration.rs 174-189. *)
  Definition halo_type (self rank : nat) (x : result) : particle_type :=
    if rank =? self then LocalPeriodic (r_id x) (r_wrap x)
    else if is_periodic (r_wrap x) then RemotePeriodic (r_id x) rank (r_wrap x)
    else Remote (r_id x) rank.

  (** The body of the inner loop of [iterate], halo_iteration.rs 174-202. *)
  Definition import_halo (self : nat) (s : rank_state) (r : nat * result) : outcome rank_state :=
    let (rank, x) := r in
    let ptype := halo_type self rank x in
    if existsb (fun h => particle_type_eqb (fst h) ptype) (haloes s) then Panic DuplicateHalo
    else match insert (points s ++ [r_point x]) (tri s) with
         | None => Panic InsertFailed
         | Some (index, changed, t) =>
             let s1 := {| tri := t; points := points s ++ [r_point x]; kinds := kinds s ++ [Halo rank];
                          haloes := haloes s; undecided := undecided s; cache := cache s |} in
             Done {| tri := t; points := points s1; kinds := kinds s1;
                     haloes := haloes s ++ [(ptype, index)];
                     undecided := undecided s ++ map (fun i => (i, None)) (filter (should_be_checked s1) changed);
                     cache := cache s |}
         end.
  (** The loop over the results of all ranks, in the order of the ranks. *)
  Definition import (self : nat) (results : list (list result)) (s : rank_state) : outcome rank_state :=
    fold_outcome (import_halo self)
      (flat_map (fun x : nat * list result => map (pair (fst x)) (snd x)) (combine (seq 0 (length results)) results)) s.

  (** The part of [iterate] up to the results of the search, halo_iteration.rs 161-170 with
      [radius_search], parallel/mod.rs 227-240, on all ranks: the state of every rank and the results it
      has received from every rank. The exchanges deliver to every rank what the others have sent to it. *)
  Definition deliveries (w : list rank_state) : outcome (list (rank_state * list (list result))) :=
    andthen (map_outcome get_radius_search_data w) (fun searched =>
    let searches := map fst searched in
    andthen (map_outcome (fun x : nat * (list search * rank_state) =>
               andthen (local_periodic_haloes (fst x) (fst (snd x)) (cache (snd (snd x)))) (fun '(own, c) =>
               andthen (outgoing_results (fst x) searches c) (fun '(out, c) =>
               Done (own, out, set_cache (snd (snd x)) c))))
             (combine (seq 0 (length searched)) searched)) (fun answered =>
    Done (map (fun x : nat * (list result * list (list result) * rank_state) =>
                 let '(self, (own, _, s)) := x in
                 (s, map (fun y : nat * (list result * list (list result) * rank_state) =>
                            if fst y =? self then own else nth self (snd (fst (snd y))) [])
                       (combine (seq 0 (length answered)) answered)))
            (combine (seq 0 (length answered)) answered)))).

  (** One round of [iterate] on all ranks, halo_iteration.rs 161-205. *)
  Definition round (w : list rank_state) : outcome (list rank_state) :=
    andthen (deliveries w) (fun d =>
      map_outcome (fun x : nat * (rank_state * list (list result)) => import (fst x) (snd (snd x)) (fst (snd x)))
        (combine (seq 0 (length d)) d)).

  (** [everyone_finished], parallel/mod.rs 246-253, and [run], halo_iteration.rs 155-159. The number of
      rounds is bounded by the fuel; [None] if it is used up. *)
  Definition everyone_finished (w : list rank_state) : bool :=
    fold_right (fun s n => length (undecided s) + n) 0 w =? 0.
  Fixpoint run (fuel : nat) (w : list rank_state) : option (outcome (list rank_state)) :=
    if everyone_finished w then Some (Done w)
    else match fuel with
         | O => None
         | S fuel => match round w with
                     | Done w => run fuel w
                     | Panic why => Some (Panic why)
                     end
         end.

  (** [Triangulation::construct], delaunay/mod.rs 120-134, after the outer points have been entered
      ([insert_basic_tetra]), and [HaloIteration::new] with [set_all_tetras_undecided],
      halo_iteration.rs 143-153 and 240-248. The local points are given in the order of their keys. *)
  Definition insert_inner (s : rank_state) (x : P) : outcome rank_state :=
    match insert (points s ++ [x]) (tri s) with
    | None => Panic InsertFailed
    | Some (_, _, t) => Done {| tri := t; points := points s ++ [x]; kinds := kinds s ++ [Inner];
                                haloes := haloes s; undecided := undecided s; cache := cache s |}
    end.
  Definition initial (start : triangulation) (outer : list P) (local : list P) : outcome rank_state :=
    andthen (fold_outcome insert_inner local
               {| tri := start; points := outer; kinds := map (fun _ => Outer) outer;
                  haloes := []; undecided := []; cache := [] |}) (fun s =>
      Done (set_undecided s (map (fun i => (i, None)) (filter (should_be_checked s) (map fst (tetras (tri s))))))).
End Halo.
