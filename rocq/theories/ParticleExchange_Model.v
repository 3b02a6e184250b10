(** Model of the exchange of particles between ranks:
    [/repo/src/domain/exchange_data_plugin.rs] and
    [set_outgoing_entities_system], [/repo/src/domain/mod.rs] 163-178.

    The entity component system of a rank is a list of entities with, for each of
    the [m] component types for which an [ExchangeDataPlugin] was added, an
    optional value. Component types without this plugin, and the [LocalParticle]
    marker, are not represented. A panic is [None]; it ends the whole program.
    The collective calls of [exchange_all] are replaced by their result, the value
    specified in Exchange_Spec and proved of the protocol in C20. *)
From Coq Require Import List Arith.
Import ListNotations.
From Verif Require Import DataByRank_Model Exchange_Model Exchange_Spec Decomp_Model.

Section ParticleExchange.
Context {V : Type}.
Variable n : nat. (* number of ranks *)
Variable m : nat. (* number of component types *)

Definition comps : Type := list (option V).
Definition world : Type := list (nat * comps).

(** The rank chosen for a particle: [into_key] of its position followed by
    [get_owning_rank] (C17); an arbitrary function here. *)
Variable owner : comps -> nat.

(** [set_outgoing_entities_system], domain/mod.rs 163-178, with
    [OutgoingEntities::add], exchange_data_plugin.rs 37-41. *)
Fixpoint add_outgoing (x : nat) (w : world) (d : dbr (list nat)) : option (dbr (list nat)) :=
  match w with
  | [] => Some d
  | (e, c) :: w' =>
      if owner c =? x then add_outgoing x w' d
      else match dmodify d (owner c) (fun l => l ++ [e]) with
           | Some d' => add_outgoing x w' d'
           | None => None
           end
  end.
Definition set_outgoing (x : nat) (w : world) : option (dbr (list nat)) :=
  add_outgoing x w (dfrom_closure [] n (Some x)).

(** [query.get(entity).unwrap()] for component type [t]. *)
Definition query_get (w : world) (t e : nat) : option V :=
  match find (fun ec => fst ec =? e) w with
  | Some (_, c) => nth t c None
  | None => None
  end.

(** [fill_buffers_system], exchange_data_plugin.rs 116-132; buffers start as
    [from_size_and_rank]. *)
Fixpoint fill_loop (w : world) (t : nat) (out : list (nat * list nat)) (b : dbr (list V))
  : option (dbr (list V)) :=
  match out with
  | [] => Some b
  | (rank, entities) :: out' =>
      match opt_all (query_get w t) entities with
      | None => None
      | Some data =>
          match dinsert b rank data with
          | Some b' => fill_loop w t out' b'
          | None => None
          end
      end
  end.
Definition fill_buffers (x t : nat) (w : world) (out : dbr (list nat)) : option (dbr (list V)) :=
  fill_loop w t (diter out) (dfrom_closure [] n (Some x)).

(** The counts sent by [spawn_incoming_entities_system],
    exchange_data_plugin.rs 164-174. *)
Definition num_data (x : nat) (out : dbr (list nat)) : option (dbr (list nat)) :=
  match opt_all (fun r => match dindex out r with
                          | Some l => Some (r, [length l])
                          | None => None
                          end) (others n x) with
  | Some l => dfrom_iter l
  | None => None
  end.

(** Result of [exchange_all] on rank [y] when rank [x] passes [d x]. *)
Definition exchange_result {B} (d : nat -> dbr (list B)) (y : nat) : dbr (list B) :=
  map (fun x => if x =? y then None else Some (addressed (d x) y)) (seq 0 n).

(** The loop of [spawn_incoming_entities_system], exchange_data_plugin.rs
    175-184. [commands.spawn] returns entities that are not in use: the next
    numbers from [next]. The result also lists the spawned entities. *)
Fixpoint spawn_loop (next : nat) (incoming : list (nat * list nat)) (sp : dbr (list nat))
  : option (dbr (list nat) * list nat) :=
  match incoming with
  | [] => Some (sp, [])
  | (rank, nums) :: rest =>
      match nums with
      | [] => None
      | k :: _ =>
          match dinsert sp rank (seq next k) with
          | None => None
          | Some sp' =>
              match spawn_loop (next + k) rest sp' with
              | Some (sp'', es) => Some (sp'', seq next k ++ es)
              | None => None
              end
          end
      end
  end.
Definition spawn_incoming (y next : nat) (incoming : dbr (list nat))
  : option (dbr (list nat) * list nat) :=
  match dinto_iter incoming with
  | Some l => spawn_loop next l (dfrom_closure [] n (Some y))
  | None => None
  end.

(** [commands.entity(e).insert(component)]. *)
Fixpoint set_comp (t : nat) (v : V) (c : comps) : comps :=
  match c, t with
  | [], _ => []
  | _ :: c', 0 => Some v :: c'
  | o :: c', S t' => o :: set_comp t' v c'
  end.
Definition insert_comp (w : world) (t e : nat) (v : V) : world :=
  map (fun ec => if fst ec =? e then (fst ec, set_comp t v (snd ec)) else ec) w.

(** [exchange_buffers_system], exchange_data_plugin.rs 134-148, after the
    exchange: zip the spawned entities of each rank with its data. *)
Definition insert_all (w : world) (t : nat) (entities : list nat) (data : list V) : world :=
  fold_left (fun w' ev => insert_comp w' t (fst ev) (snd ev)) (combine entities data) w.
Fixpoint insert_loop (w : world) (t : nat) (spawned : dbr (list nat))
    (incoming : list (nat * list V)) : option world :=
  match incoming with
  | [] => Some w
  | (rank, data) :: rest =>
      match dindex spawned rank with
      | None => None
      | Some es => insert_loop (insert_all w t es data) t spawned rest
      end
  end.

(** [despawn_outgoing_entities_system], exchange_data_plugin.rs 195-204. *)
Definition despawn (w : world) (out : dbr (list nat)) : world :=
  filter (fun ec => negb (existsb (Nat.eqb (fst ec)) (concat (map snd (diter out))))) w.

(** The exchange systems of one rank for all component types in the order in
    which their plugins were added (the same on all ranks). [buffers x] are the
    buffers of rank [x], one per type. *)
Fixpoint exchange_types (y : nat) (spawned : dbr (list nat)) (types : list nat)
    (buffers : nat -> list (dbr (list V))) (w : world) : option world :=
  match types with
  | [] => Some w
  | t :: types' =>
      match insert_loop w t spawned
              (fst (ddrain (exchange_result (fun x => nth 0 (buffers x) []) y))) with
      | Some w' => exchange_types y spawned types' (fun x => tl (buffers x)) w'
      | None => None
      end
  end.

Definition all_ranks {B} (f : nat -> option B) : option (list B) := opt_all f (seq 0 n).

(** The stages [SetOutgoingEntities] and [Exchange] on all ranks. Commands take
    effect at the end of the stage: spawning, inserting and despawning. *)
Definition exchange_particles (types : list nat) (next : nat -> nat) (ws : list world)
  : option (list world) :=
  match all_ranks (fun x => set_outgoing x (nth x ws [])) with
  | None => None
  | Some outs =>
  match all_ranks (fun x => num_data x (nth x outs [])) with
  | None => None
  | Some nums =>
  match all_ranks (fun y => spawn_incoming y (next y)
                              (exchange_result (fun x => nth x nums []) y)) with
  | None => None
  | Some spawned =>
  match all_ranks (fun x => opt_all (fun t => fill_buffers x t (nth x ws []) (nth x outs []))
                                    types) with
  | None => None
  | Some buffers =>
      all_ranks (fun y =>
        let sp := nth y spawned ([], []) in
        match exchange_types y (fst sp) types (fun x => nth x buffers [])
                (nth y ws [] ++ map (fun e => (e, repeat None m)) (snd sp)) with
        | Some w => Some (despawn w (nth y outs []))
        | None => None
        end)
  end end end end.

End ParticleExchange.
Arguments comps V : clear implicits.
Arguments world V : clear implicits.
