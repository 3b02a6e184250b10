(** The check for deadlocks before a sweep, src/sweep/deadlock_detection.rs. *)
From Coq Require Import List Arith Bool Lia.
From Verif Require Import Sweep_Model.
Import ListNotations.
Local Open Scope nat_scope.

(** src/sweep/deadlock_detection.rs:25-30 [ParticleInfo]. The rank is the rank in the id: the code takes it from the
    neighbour reference ([RemoteNeighbour]), which in Sweep_Model is the id. *)
Definition info := (pid * nat)%type.
(** src/sweep/deadlock_detection.rs:19-23 [Dependency]. *)
Definition dependency := (info * info)%type.
Definition info_eqb (a b : info) : bool := pid_eqb (fst a) (fst b) && (snd a =? snd b).
Definition dependency_eqb (a b : dependency) : bool := info_eqb (fst a) (fst b) && info_eqb (snd a) (snd b).

Section WithConfig.
  Variable G : config.

  (** src/sweep/deadlock_detection.rs:43-62 [get_dependency]; [None]: the level of one of the two is not known. *)
  Definition get_dependency (r : nat) (p1 p2 : pid) : option dependency :=
    match get_level G r p1, get_level G r p2 with
    | Some l1, Some l2 => Some ((p1, l1), (p2, l2))
    | _, _ => None
    end.

  (** src/sweep/deadlock_detection.rs:70-80, one face of the active cell [c]: nothing, or the rank and the dependency
      to push for it; [None] is a panic (unknown level, or no list for this rank). The [assert!] of line 71 always
      holds as [c] comes from the list of active cells. *)
  Definition face_dependency (r cur : nat) (c : pid) (f : face) : option (list (nat * dependency)) :=
    match f_nb f with
    | Remote p =>
        match nb_active G r cur p with
        | None => None
        | Some false => Some []
        | Some true =>
            match (if r <? rank_of p then get_dependency r c p else get_dependency r p c) with
            | None => None
            | Some d => if is_remote_rank G r (rank_of p) then Some [(rank_of p, d)] else None
            end
        end
    | _ => Some []
    end.

  Fixpoint gather {A B} (f : A -> option (list B)) (l : list A) : option (list B) :=
    match l with
    | [] => Some []
    | a :: l => match f a, gather f l with Some x, Some y => Some (x ++ y) | _, _ => None end
    end.

  (** src/sweep/deadlock_detection.rs:64-84 [get_dependencies], all lists together, each entry with the rank it is
      for. *)
  Definition get_dependencies (r cur : nat) : option (list (nat * dependency)) :=
    gather (fun c => gather (face_dependency r cur c) (faces G c)) (active_cells G r cur).
  (** [dependencies[rank]]. *)
  Definition for_rank (s : nat) (l : list (nat * dependency)) : list dependency :=
    map snd (filter (fun x => fst x =? s) l).

  (** The length of [to_solve] after [get_initial_tasks], src/sweep/mod.rs:388-398. *)
  Definition num_initial_tasks (r cur : nat) : nat :=
    length (flat_map (fun d => map (fun c => (c, d)) (filter (fun c => missing_init G r cur c d =? 0) (active_cells G r cur)))
              (seq 0 (ndirs G))).

  (** src/sweep/deadlock_detection.rs:111-124, equality of the two lists as sets. *)
  Definition mem (d : dependency) (l : list dependency) : bool := existsb (dependency_eqb d) l.
  Definition same_set (l1 l2 : list dependency) : bool :=
    forallb (fun d => mem d l2) l1 && forallb (fun d => mem d l1) l2.

  (** Where a rank is: it has not yet called the check; it waits in the sum over all ranks; it has sent its lists and
      waits for those of the others; or it has returned or panicked in one of the three ways. *)
  Inductive place := Before | AtSum | AtExchange | Passed | NoTask | Unknown | Differ.

  (** src/sweep/deadlock_detection.rs:86-90: a rank without active cells does not take part in the sum. *)
  Definition takes_part (r cur : nat) : bool := negb (length (active_cells G r cur) =? 0).

  (** src/sweep/deadlock_detection.rs:105-108 up to the sending of the lists. *)
  Definition send_lists (r cur : nat) : place :=
    match get_dependencies r cur with Some _ => AtExchange | None => Unknown end.
  Definition enter (r cur : nat) : place := if takes_part r cur then AtSum else send_lists r cur.

  (** The sum over all ranks returns when every rank has called it (a collective operation). *)
  Definition called_sum (cur : nat) (w : nat -> place) (s : nat) : bool :=
    takes_part s cur && match w s with Before => false | _ => true end.
  Definition total_tasks (cur : nat) : nat := list_sum (map (fun r => num_initial_tasks r cur) (seq 0 (nranks G))).

  (** The lists of a rank can be received when it has sent them. *)
  Definition has_sent (w : nat -> place) (s : nat) : bool :=
    match w s with AtExchange | Passed | Differ => true | _ => false end.

  (** src/sweep/deadlock_detection.rs:110-125: the lists received from [s] are those [s] made for [r]. *)
  Definition compare (r cur : nat) : place :=
    match get_dependencies r cur with
    | None => Unknown
    | Some own =>
        if forallb (fun s => match get_dependencies s cur with
                             | Some theirs => same_set (for_rank r theirs) (for_rank s own)
                             | None => true
                             end) (others G r)
        then Passed else Differ
    end.

  Definition set_place (w : nat -> place) (r : nat) (p : place) : nat -> place := fun s => if s =? r then p else w s.

  (** src/sweep/deadlock_detection.rs:86-127 [check_deadlock] on all ranks, one move of one rank. *)
  Inductive step (cur : nat) (w : nat -> place) : (nat -> place) -> Prop :=
  | step_enter r : r < nranks G -> w r = Before -> step cur w (set_place w r (enter r cur))
  | step_sum r : r < nranks G -> w r = AtSum -> (forall s, s < nranks G -> called_sum cur w s = true) ->
      step cur w (set_place w r (if total_tasks cur =? 0 then NoTask else send_lists r cur))
  | step_exchange r : r < nranks G -> w r = AtExchange -> (forall s, In s (others G r) -> has_sent w s = true) ->
      step cur w (set_place w r (compare r cur)).

  Inductive execution (cur : nat) : nat -> (nat -> place) -> Prop :=
  | ex_start : execution cur 0 (fun _ => Before)
  | ex_step n w w' : execution cur n w -> step cur w w' -> execution cur (S n) w'.
End WithConfig.
