(** Properties C27 and C28: cartesian grids. Dimension two and three are instances
    ([sides] of length two and three). *)
From Coq Require Import List Arith ZArith QArith Qround Qcanon Permutation Relations.
From Verif Require Import Box_Model Cartesian_Model Cartesian_Spec Cartesian_Sweep Cartesian_Final.
From Verif Require Sweep_Model Sweep_Spec Sweep_Util Sweep_Live Sweep_Live2 Sweep_Final Sweep_Safety.
Import ListNotations.
Local Open Scope nat_scope.

(** C27. The construction never panics, whatever the assignment of cells to ranks and
    the order of iteration over hash maps. *)
Theorem C27_every_rank_constructs : forall sides cell_size rank_function allow_periodic drain,
  (forall r l, Permutation (drain r l) l) ->
  forall r, exists l, construct sides cell_size rank_function allow_periodic (drain r) r = Some l.
Proof. exact constructs. Qed.
Print Assumptions C27_every_rank_constructs.

(** Faces are mutual (see [mutual] in Cartesian_Spec.v). *)
Theorem C27_faces_mutual : forall sides cell_size rank_function allow_periodic drain,
  Forall (fun s => 0 < s)%Q sides -> (forall r l, Permutation (drain r l) l) ->
  forall world, (forall r, construct sides cell_size rank_function allow_periodic (drain r) r = Some (world r)) ->
  mutual (length sides) (fun k => nth k sides 0%Q)
    (fun k => nth k sides 0 / inject_Z (Qfloor (nth k sides 0 / cell_size)))%Q world.
Proof. exact final_mutual. Qed.
Print Assumptions C27_faces_mutual.

(** Every cell, local or halo, has one face per side, all of the same area; there are no
    boundary faces in periodic boxes and no periodic neighbours in others. *)
Theorem C27_one_face_per_side : forall sides cell_size rank_function allow_periodic drain,
  Forall (fun s => 0 < s)%Q sides -> (forall r l, Permutation (drain r l) l) ->
  forall world, (forall r, construct sides cell_size rank_function allow_periodic (drain r) r = Some (world r)) ->
  forall r e, In e (world r) ->
    Forall2 veq (map (fun ft => normal (fst ft)) (neighbours (e_cell e))) (side_normals (length sides))
    /\ (forall f t, In (f, t) (neighbours (e_cell e)) -> area f = (cell_size ^ Z.of_nat (length sides - 1))%Q)
    /\ (allow_periodic = true -> forall f, ~ In (f, Boundary) (neighbours (e_cell e)))
    /\ (allow_periodic = false -> forall f t, In (f, t) (neighbours (e_cell e)) -> is_periodic t = false).
Proof. exact final_faces. Qed.
Print Assumptions C27_one_face_per_side.

(** On each rank the ids of the local cells are 0 to n-1. *)
Theorem C27_local_ids_without_gaps : forall sides cell_size rank_function allow_periodic drain,
  (forall r l, Permutation (drain r l) l) ->
  forall world, (forall r, construct sides cell_size rank_function allow_periodic (drain r) r = Some (world r)) ->
  forall r, Permutation (map e_id (locals (world r))) (map (pair r) (seq 0 (length (locals (world r))))).
Proof. exact final_ids. Qed.
Print Assumptions C27_local_ids_without_gaps.

(** Each point of the regular grid is a cell of exactly one rank, the one it is assigned
    to. *)
Theorem C27_cells_are_the_grid_points : forall sides cell_size rank_function allow_periodic drain,
  Forall (fun s => 0 < s)%Q sides -> (forall r l, Permutation (drain r l) l) ->
  forall world, (forall r, construct sides cell_size rank_function allow_periodic (drain r) r = Some (world r)) ->
    (forall r e, In e (locals (world r)) -> grid_point sides cell_size (e_pos e) /\ rank_function (e_pos e) = r)
    /\ (forall x, grid_point sides cell_size x -> exists r e, In e (locals (world r)) /\ veq (e_pos e) x)
    /\ (forall r r' e e', In e (locals (world r)) -> In e' (locals (world r')) -> veq (e_pos e) (e_pos e') ->
          r = r' /\ e = e').
Proof. exact final_points. Qed.
Print Assumptions C27_cells_are_the_grid_points.

(** Each rank knows exactly the cells of other ranks adjacent to its own, each once, and
    with the same position and cell as their owner. *)
Theorem C27_halos_exact : forall sides cell_size rank_function allow_periodic drain,
  Forall (fun s => 0 < s)%Q sides -> (forall r l, Permutation (drain r l) l) ->
  forall world, (forall r, construct sides cell_size rank_function allow_periodic (drain r) r = Some (world r)) ->
  forall r,
    NoDup (map e_id (halos (world r)))
    /\ (forall i, In i (map e_id (halos (world r))) <->
         fst i <> r /\ exists e f t, In e (locals (world r)) /\ In (f, t) (neighbours (e_cell e)) /\ ptype_id t = Some i)
    /\ (forall r' e e', In e (halos (world r)) -> In e' (locals (world r')) -> e_id e = e_id e' ->
         halo_of e = Some r' /\ e_pos e = e_pos e' /\ e_cell e = e_cell e').
Proof. exact final_halos. Qed.
Print Assumptions C27_halos_exact.

(** The assignment into slabs used by the program yields existing ranks. *)
Theorem C27_slab_ranks_exist : forall sides cell_size n x,
  Forall (fun s => 0 < s)%Q sides -> sides <> [] -> 0 < n ->
  grid_point sides cell_size x -> slab_rank sides n x < n.
Proof. exact slab_ok. Qed.
Print Assumptions C27_slab_ranks_exist.

(** A box of three times two cells on two ranks, periodic. *)
Definition ex_sides : list Q := [3; 2]%Q.
Example C27_example :
  Forall (fun s => 0 < s)%Q ex_sides
  /\ option_map (map (fun e => (halo_of e, e_id e, map snd (neighbours (e_cell e)))))
       (construct ex_sides 1 (slab_rank ex_sides 2) true (fun l => l) 1) =
     Some [(Some 0, (0, 0), [RemotePeriodic (1, 0) 1 [Minus; NoWrap]; Local (0, 2);
                             LocalPeriodic (0, 1) [NoWrap; Minus]; Local (0, 1)]);
           (Some 0, (0, 1), [RemotePeriodic (1, 1) 1 [Minus; NoWrap]; Local (0, 3);
                             Local (0, 0); LocalPeriodic (0, 0) [NoWrap; Plus]]);
           (Some 0, (0, 2), [Local (0, 0); Remote (1, 0) 1;
                             LocalPeriodic (0, 3) [NoWrap; Minus]; Local (0, 3)]);
           (Some 0, (0, 3), [Local (0, 1); Remote (1, 1) 1;
                             Local (0, 2); LocalPeriodic (0, 2) [NoWrap; Plus]]);
           (None, (1, 0), [Remote (0, 2) 0; RemotePeriodic (0, 0) 0 [Plus; NoWrap];
                           LocalPeriodic (1, 1) [NoWrap; Minus]; Local (1, 1)]);
           (None, (1, 1), [Remote (0, 3) 0; RemotePeriodic (0, 1) 0 [Plus; NoWrap];
                           Local (1, 0); LocalPeriodic (1, 0) [NoWrap; Plus]])].
Proof. split; [repeat constructor|vm_compute; reflexivity]. Qed.

(** C28. The upwind relation has no cycle, for any direction vector, periodic or not (a
    neighbour across the periodic boundary is not a dependency). *)
Theorem C28_no_cycle : forall sides cell_size rank_function allow_periodic drain,
  Forall (fun s => 0 < s)%Q sides -> (forall r l, Permutation (drain r l) l) ->
  forall world, (forall r, construct sides cell_size rank_function allow_periodic (drain r) r = Some (world r)) ->
  forall dir i, ~ clos_trans _ (upwind_of world dir) i i.
Proof. exact final_acyclic. Qed.
Print Assumptions C28_no_cycle.

(** The sweep on a cartesian grid meets the assumptions of the properties C09 to C15, for
    any directions, levels, and order of sweeps. *)
Theorem C28_sweep_assumptions_met : forall sides cell_size rank_function allow_periodic drain,
  Forall (fun s => 0 < s)%Q sides -> (forall r l, Permutation (drain r l) l) ->
  forall world, (forall r, construct sides cell_size rank_function allow_periodic (drain r) r = Some (world r)) ->
  forall n, (forall x, grid_point sides cell_size x -> rank_function x < n) ->
  forall dirs batch source lev sweeps resp chemup,
    Sweep_Spec.consistent (sweep_config world n dirs batch source lev sweeps resp chemup)
    /\ Sweep_Spec.acyclic (sweep_config world n dirs batch source lev sweeps resp chemup)
    /\ (allow_periodic = false -> Sweep_Spec.non_periodic (sweep_config world n dirs batch source lev sweeps resp chemup)).
Proof. exact final_sweep. Qed.
Print Assumptions C28_sweep_assumptions_met.

(** In particular: on every cartesian grid split into slabs, under every fair schedule,
    all ranks finish all sweeps. *)
Theorem C28_sweeps_finish : forall sides cell_size n allow_periodic drain,
  Forall (fun s => 0 < s)%Q sides -> sides <> [] -> 0 < n -> (forall r l, Permutation (drain r l) l) ->
  exists world, (forall r, construct sides cell_size (slab_rank sides n) allow_periodic (drain r) r = Some (world r))
  /\ forall dirs batch source lev sweeps resp chemup,
     let G := sweep_config world n dirs batch source lev sweeps resp chemup in
     forall i o p x sched, Sweep_Live2.fair G sched ->
     exists S0 len S, Sweep_Model.init G i o p x = Some S0
       /\ Sweep_Model.exec G S0 (map sched (seq 0 len)) = Some S /\ Sweep_Model.finished G S.
Proof. exact sweeps_finish. Qed.
Print Assumptions C28_sweeps_finish.

Example C28_example :
  exists l, construct ex_sides 1 (slab_rank ex_sides 2) true (fun l => l) 1 = Some l
  /\ exists e f t, In e (locals l) /\ In (f, t) (neighbours (e_cell e)) /\ points_upwind f [1; 2]%Q = true
     /\ is_remote t = true /\ is_periodic t = false.
Proof.
  destruct (construct ex_sides 1 (slab_rank ex_sides 2) true (fun l => l) 1) as [l|] eqn:E; [|discriminate E].
  exists l. split; [reflexivity|].
  assert (X : existsb (fun e => existsb (fun ft => points_upwind (fst ft) [1; 2]%Q && is_remote (snd ft)
              && negb (is_periodic (snd ft))) (neighbours (e_cell e))) (locals l) = true).
  { vm_compute in E. injection E as <-. vm_compute. reflexivity. }
  apply existsb_exists in X. destruct X as (e & He & X). apply existsb_exists in X. destruct X as ([f t] & Hft & X).
  exists e, f, t. cbn [fst snd] in X. apply andb_prop in X. destruct X as [X X3]. apply andb_prop in X. destruct X as [X1 X2].
  repeat (split; [assumption|]). destruct (is_periodic t); [discriminate X3|reflexivity].
Qed.
