(** Model of the exchange of time step levels, src/sweep/mod.rs:591-609
    [communicate_levels]. The exchange itself ([exchange_all]) delivers to each
    rank exactly what the others address to it (property C20). *)
From Coq Require Import List Arith Bool.
From Verif Require Import Sweep_Model.
Import ListNotations.

Section Levels.
  Variable G : config.

  (** src/sweep/mod.rs:595-603: what rank [src] pushes for rank [dst]. *)
  Definition level_msgs (src dst : nat) : list (pid * nat) :=
    flat_map (fun c => flat_map (fun f =>
      match f_nb f with
      | Remote p | RemotePeriodic p => if rank_of p =? dst then [(c, lev G c)] else []
      | _ => []
      end) (faces G c)) (own_cells G src).

  (** src/sweep/mod.rs:604-608: insertion into the hash map, later entries
      replace earlier ones. *)
  Definition insert_level (h : pid -> option nat) (m : pid * nat) : pid -> option nat :=
    fun p => if pid_eqb p (fst m) then Some (snd m) else h p.

  Definition communicate_levels (r : nat) (h : pid -> option nat) : pid -> option nat :=
    fold_left insert_level (flat_map (fun s => level_msgs s r) (others G r)) h.
End Levels.
