(** Property C32: remapping from another snapshot. *)
From Coq Require Import List Arith QArith.
Import ListNotations.
From Verif Require Import Remap_Model Remap_Spec Remap_Proofs.

(** C32. If every rank gets at least one record of the other snapshot, all ranks finish
    and every particle keeps its entity and position and takes, for temperature and
    fraction, the larger of its own value and that of a record which is as close as any
    record read by any rank. This holds for every decomposition, every distribution and
    every size of the chunks. *)
Theorem C32_nearest : forall nearest owner n chunk_size data particles,
  finds_nearest nearest -> (1 <= chunk_size)%nat ->
  length data = n -> length particles = n ->
  (forall y, (y < n)%nat -> exists x d, (x < n)%nat /\ In d (nth x data [])
     /\ (owner (fst d) = y \/ ((n <= owner (fst d))%nat /\ x = y))) ->
  (forall x, (x < n)%nat -> NoDup (map fst (nth x particles []))) ->
  exists particles', remap_system nearest owner n chunk_size data particles = Some particles'
    /\ length particles' = n
    /\ forall x, (x < n)%nat -> Forall2 (remapped (concat data)) (nth x particles []) (nth x particles' []).
Proof. exact remap_system_spec. Qed.
Print Assumptions C32_nearest.

(** Two ranks, three records, one of them outside of all cuts. Particle 7 of rank 0 is
    closest to a record that rank 1 holds after the redistribution. *)
Definition ex_owner (p : pos) : nat := let '(x, _, _) := p in
  if Qle_bool x (1 # 2) then 0 else if Qle_bool x 1 then 1 else 2.
Definition ex_data : list (list remap_data) :=
  [[((1 # 10, 0, 0), (100, 1 # 10)); ((6 # 10, 0, 0), (200, 2 # 10))]; [((2, 0, 0), (300, 3 # 10))]]%Q.
Definition ex_particles : list (list particle) :=
  [[(7%nat, ((5 # 10, 0, 0), (150, 5 # 10))); (8%nat, ((0, 0, 0), (50, 0)))]; [(7%nat, ((3, 0, 0), (1, 0)))]]%Q.
Example C32_example :
  finds_nearest scan_nearest
  /\ (forall y, (y < 2)%nat -> exists x d, (x < 2)%nat /\ In d (nth x ex_data [])
       /\ (ex_owner (fst d) = y \/ ((2 <= ex_owner (fst d))%nat /\ x = y)))
  /\ (forall x, (x < 2)%nat -> NoDup (map fst (nth x ex_particles [])))
  /\ remap_system scan_nearest ex_owner 2 1 ex_data ex_particles
     = Some [[(7%nat, ((5 # 10, 0, 0), (200, 5 # 10))); (8%nat, ((0, 0, 0), (100, 1 # 10)))];
             [(7%nat, ((3, 0, 0), (300, 3 # 10)))]]%Q.
Proof.
  split; [exact scan_nearest_ok|]. split; [|split].
  - intros [|[|y]] H.
    + exists 0%nat. eexists. split; [auto|]. split; [left; reflexivity|]. left. reflexivity.
    + exists 0%nat. eexists. split; [auto|]. split; [right; left; reflexivity|]. left. reflexivity.
    + exfalso. apply (Nat.nlt_0_r y). apply Nat.succ_lt_mono, Nat.succ_lt_mono. exact H.
  - intros [|[|x]] H; cbn.
    + constructor; [intros [F|[]]; discriminate|]. constructor; [intros []|constructor].
    + constructor; [intros []|constructor].
    + destruct x; constructor.
  - vm_compute. reflexivity.
Qed.

(** The condition is needed: if one rank gets no record, the remapping panics, although
    the nearest record is well defined. *)
Theorem C32_rank_without_data_refuted : exists owner data particles,
  concat data <> [] /\ (forall x, NoDup (map fst (nth x particles [])))
  /\ forall nearest, remap_system nearest owner 2 1 data particles = None.
Proof.
  exists (fun _ => 0%nat), [[((0, 0, 0), (1, 0))]; []]%Q, [[(0%nat, ((0, 0, 0), (1, 0)))]; []]%Q.
  split; [discriminate|]. split.
  - intros [|[|[|x]]]; cbn; repeat constructor; intros [].
  - intro nearest. unfold remap_system.
    set (d := redistribute _ _ _). vm_compute in d. subst d. unfold remap.
    set (s := Collective_Model.rounds_of _ _). vm_compute in s. subst s. cbn [rounds]. unfold exchange_request_chunk.
    destruct (Collective_Model.for_all_ranks 2 _); [|reflexivity].
    set (e := map _ _). vm_compute in e. subst e. unfold Collective_Model.for_all_ranks at 1.
    cbn [seq Decomp_Model.opt_all]. unfold get_outgoing_requests at 1. cbn. reflexivity.
Qed.
Print Assumptions C32_rank_without_data_refuted.
