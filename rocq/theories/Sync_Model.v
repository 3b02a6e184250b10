(** Model of the mirrors of entities on other ranks,
    [/repo/src/communication/sync_communicator.rs], with the keys of
    [/repo/src/communication/identified.rs].
    A panic is [None]. The exchange is replaced by its result, the value described by C20. A hash map is a list of
    pairs with different keys, in the order in which it was filled; the order in which it is iterated is an arbitrary
    function of the list. *)
From Coq Require Import List Arith NArith Bool.
From Verif Require Import DataByRank_Model Exchange_Model ParticleExchange_Model Sync_Spec.
Import ListNotations.

(** [Entity] of bevy: an index that is reused with another generation; both are [u32]. *)
Record entity := E { generation : N; index : N }.
Definition entity_eqb (a b : entity) : bool := ((generation a =? generation b) && (index a =? index b))%N.
(** [Entity::to_bits], used by [Identified::new], identified.rs 10-15; the [u32] numbers are put next to each other. *)
Definition to_bits (e : entity) : N := (generation e * 2 ^ 32 + index e)%N.
(** [Entity::from_bits], used by [Identified::entity], identified.rs 17-19. *)
Definition from_bits (k : N) : entity := E (k / 2 ^ 32)%N (k mod 2 ^ 32)%N.

(** [HashMap]: [get], [remove] and [insert]. *)
Section Maps.
  Context {K V : Type}.
  Variable eqb : K -> K -> bool.
  Definition hget (m : list (K * V)) (k : K) : option V := option_map snd (find (fun p => eqb (fst p) k) m).
  Definition hremove (m : list (K * V)) (k : K) : list (K * V) := filter (fun p => negb (eqb (fst p) k)) m.
  Definition hinsert (m : list (K * V)) (k : K) (v : V) : list (K * V) := hremove m k ++ [(k, v)].
End Maps.

Section Sync.
  Context {T : Type}.
  (** The number of ranks. *)
  Variable n : nat.
  (** The orders in which hash maps and hash sets are iterated. *)
  Variable order_sync : list (entity * T) -> list (entity * T).
  Variable order_keys : list N -> list N.
  (** The entity allocator: an entity that is not in use. *)
  Variable alloc : list (entity * T) -> entity.

  (** [SyncCommunicator], sync_communicator.rs 36-40; [SyncResult], 15-18. *)
  Record sync := Sync { known : dbr (list (N * entity)); to_sync : dbr (list (entity * T)) }.
  Record sync_result := SyncResult { updated : dbr (list (entity * T)); deleted : dbr (list entity) }.

  (** [From<Communicator<T>>], 42-53. *)
  Definition new_sync (x : nat) : sync := Sync (dfrom_closure [] n (Some x)) (dfrom_closure [] n (Some x)).

  (** [send_sync], 59-61. *)
  Definition send_sync (s : sync) (rank : nat) (e : entity) (d : T) : option sync :=
    option_map (Sync (known s)) (dmodify (to_sync s) rank (fun m => hinsert entity_eqb m e d)).

  (** The data handed to the exchange, 65-76. *)
  Definition outgoing (s : sync) : option (dbr (list (N * T))) :=
    dfrom_iter (map (fun rd => (fst rd, map (fun p => (to_bits (fst p), snd p)) (order_sync (snd rd)))) (fst (ddrain (to_sync s)))).
  (** What is left behind by [drain_all], 67. *)
  Definition drained (s : sync) : sync := Sync (known s) (snd (ddrain (to_sync s))).

  (** The entities of a rank that are mirrors. The caller's closure [f] spawns an entity with the received data. *)
  Definition mirrors : Type := list (entity * T).
  Definition spawn (w : mirrors) (d : T) : mirrors * entity := let e := alloc w in (w ++ [(e, d)], e).

  (** The loop over the data of one rank, 85-96. *)
  Fixpoint absorb (data : list (N * T)) (w : mirrors) (known : list (N * entity)) (not_mentioned : list N) (upd : list (entity * T))
    : mirrors * list (N * entity) * list N * list (entity * T) :=
    match data with
    | [] => (w, known, not_mentioned, upd)
    | (k, d) :: data =>
        match hget N.eqb known k with
        | Some e => absorb data w known (filter (fun q => negb (q =? k)%N) not_mentioned) (upd ++ [(e, d)])
        | None => let (w', e) := spawn w d in absorb data w' (hinsert N.eqb known k e) not_mentioned upd
        end
    end.
  (** The loop over the entities that were not mentioned, 97-100. *)
  Fixpoint forget (keys : list N) (known : list (N * entity)) (del : list entity) : option (list (N * entity) * list entity) :=
    match keys with
    | [] => Some (known, del)
    | k :: keys =>
        match hget N.eqb known k with
        | Some e => forget keys (hremove N.eqb known k) (del ++ [e])
        | None => None
        end
    end.
  (** The body of the loop over ranks, 79-101. *)
  Definition receive_rank (data : list (N * T)) (w : mirrors) (known : list (N * entity))
    : option (mirrors * list (N * entity) * list (entity * T) * list entity) :=
    let '(w, known, not_mentioned, upd) := absorb data w known (map fst known) [] in
    match forget (order_keys not_mentioned) known [] with
    | Some (known, del) => Some (w, known, upd, del)
    | None => None
    end.
  (** The loop over ranks, 79-102. *)
  Fixpoint receive_ranks (data : list (nat * list (N * T))) (w : mirrors) (known : dbr (list (N * entity))) (r : sync_result)
    : option (mirrors * dbr (list (N * entity)) * sync_result) :=
    match data with
    | [] => Some (w, known, r)
    | (rank, l) :: data =>
        match dindex (updated r) rank, dindex (deleted r) rank, dindex known rank with
        | Some _, Some _, Some k =>
            match receive_rank l w k with
            | Some (w, k', upd, del) =>
                match dmodify known rank (fun _ => k'), dmodify (updated r) rank (fun l => l ++ upd), dmodify (deleted r) rank (fun l => l ++ del) with
                | Some known, Some u, Some d => receive_ranks data w known (SyncResult u d)
                | _, _, _ => None
                end
            | None => None
            end
        | _, _, _ => None
        end
    end.
  (** [receive_sync], 64-104, on rank [y] with the result of the exchange. *)
  Definition receive_sync (y : nat) (s : sync) (w : mirrors) (data : dbr (list (N * T))) : option (sync * mirrors * sync_result) :=
    match dinto_iter data with
    | Some l =>
        match receive_ranks l w (known s) (SyncResult (dfrom_closure [] n (Some y)) (dfrom_closure [] n (Some y))) with
        | Some (w, k, r) => Some (Sync k (to_sync s), w, r)
        | None => None
        end
    | None => None
    end.

  (** What the caller does with the result: new data for the updated entities; [despawn_deleted], 28-34. *)
  Definition update (w : mirrors) (u : list (nat * list (entity * T))) : mirrors :=
    fold_left (fun w p => map (fun q => if entity_eqb (fst q) (fst p) then (fst q, snd p) else q) w) (concat (map snd u)) w.
  Definition despawn_deleted (w : mirrors) (d : list (nat * list entity)) : mirrors :=
    fold_left (fun w e => hremove entity_eqb w e) (concat (map snd d)) w.

  (** All ranks together. A round is one collective call of [receive_sync]. *)
  Record world := World { comms : nat -> sync; live : nat -> mirrors }.
  Definition start : world := World new_sync (fun _ => []).
  Definition send (s : world) (x y : nat) (e : entity) (d : T) : option world :=
    match send_sync (comms s x) y e d with
    | Some c => Some (World (fun z => if z =? x then c else comms s z) (live s))
    | None => None
    end.
  (** The values that all ranks hand to the exchange. *)
  Fixpoint all_outgoing (s : world) (m : nat) : option (list (dbr (list (N * T)))) :=
    match m with
    | O => Some []
    | S m' => match all_outgoing s m', outgoing (comms s m') with
              | Some l, Some o => Some (l ++ [o])
              | _, _ => None
              end
    end.
  Definition receive (s : world) (data : nat -> dbr (list (N * T))) (y : nat) : option (sync * mirrors) :=
    match receive_sync y (drained (comms s y)) (live s y) (exchange_result n data y) with
    | Some (c, w, r) => Some (c, despawn_deleted (update w (diter (updated r))) (diter (deleted r)))
    | None => None
    end.
  Fixpoint all_receive (s : world) (data : nat -> dbr (list (N * T))) (m : nat) : option world :=
    match m with
    | O => Some s
    | S m' => match all_receive s data m', receive s data m' with
              | Some s', Some (c, w) => Some (World (fun z => if z =? m' then c else comms s' z) (fun z => if z =? m' then w else live s' z))
              | _, _ => None
              end
    end.
  Definition round (s : world) : option world :=
    match all_outgoing s n with
    | Some l => all_receive s (fun x => nth x l []) n
    | None => None
    end.
  (** A whole run from the beginning; [None] if a rank panics. *)
  Definition perform (s : option world) (o : sync_op entity T) : option world :=
    match s, o with
    | Some s, Send x y e d => send s x y e d
    | Some s, Round => round s
    | None, _ => None
    end.
  Definition run (ops : list (sync_op entity T)) : option world := fold_left perform ops (Some start).
End Sync.
