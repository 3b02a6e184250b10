(** C79: the check for deadlocks before a sweep. *)
From Coq Require Import List Arith ZArith QArith Qcanon Lia Reals.
From Verif Require Geometry_Model.
From Verif Require Sweep_Check Sweep_Examples.
From Verif Require Import Sweep_Model Sweep_Spec Deadlock_Model Deadlock_Spec Deadlock_Proofs Deadlock_Voronoi.
From Verif Require Voronoi3_Spec Geometry_Spec Box_Model Box_Spec Tree_Model Halo_Model HaloGeo_Model HaloGeo_Spec HaloDelaunay3_Spec HaloDelaunay3_Model
  Voronoi3_Model VoronoiGrid3_Model VoronoiGrid3_Spec VoronoiGridWhole3_Proofs.
Import ListNotations.
Local Open Scope nat_scope.

(** C79: if a rank returns from the check, then it and the other ranks agree on the pairs of active neighbours on the rank and on
    another one, in both directions: the neighbour is an active cell of its rank, which has a face towards this cell and takes it to be
    active, and both ranks know the level of the other's cell. *)
Theorem C79_passed_ranks_agree : forall G cur n w r, execution G cur n w -> r < nranks G -> w r = Passed ->
  (forall c p, rank_of p < nranks G -> depends G cur r c p -> agreed G cur r c p) /\
  (forall c p, rank_of p = r -> rank_of c < nranks G -> depends G cur (rank_of c) c p -> agreed G cur (rank_of c) c p).
Proof. exact passed_agreed. Qed.
Print Assumptions C79_passed_ranks_agree.

(** On a consistent grid without cycles, in which faces between ranks belong to both cells, no rank panics in the check. *)
Theorem C79_no_false_alarm : forall G, consistent G -> two_sided G -> forall cur n w r, acyclic_at G cur -> 0 < ndirs G ->
  execution G cur n w -> r < nranks G -> ~ panicked (w r).
Proof. exact no_alarm. Qed.
Print Assumptions C79_no_false_alarm.

(** In particular on the grids made of Voronoi cells in space (C77). *)
Theorem C79_no_false_alarm_voronoi : forall ranks cfg build_fuel search_fuel pop box particles order circumcircle characteristic_length chunk_size,
  HaloGeo_Spec.distributed3 ranks box particles -> Tree_Model.max_depth cfg < build_fuel -> forall remap outer,
  VoronoiGrid3_Spec.similar3 remap -> VoronoiGrid3_Spec.starts_with3 remap outer ->
  HaloDelaunay3_Spec.covers_spheres3 HaloDelaunay3_Model.to_point3 circumcircle -> forall fuel w w',
  VoronoiGrid3_Spec.starts_in_order3 ranks pop particles order remap outer w ->
  HaloGeo_Model.run3 ranks cfg build_fuel search_fuel pop box particles remap circumcircle characteristic_length chunk_size fuel w = Some (Halo_Model.Done w') ->
  forall hash_set, Voronoi3_Spec.iterates_set hash_set -> forall periodic world,
  (forall r s, nth_error w' r = Some s -> VoronoiGrid3_Model.construct_grid3 hash_set (order r) s periodic = Some (world r)) ->
  VoronoiGrid3_Spec.distinct_images3 box particles ->
  (periodic = true -> forall r, Forall (fun p => Box_Spec.in_box3 box (snd p)) (particles r)) ->
  (periodic = true -> VoronoiGrid3_Spec.far_outer3 box outer) ->
  forall round dirs batch source lev sweeps resp chemup, (forall x, (0 < x)%R -> (0 < round x)%Qc) ->
  let G := VoronoiGrid3_Model.sweep_config3 round world ranks dirs batch source lev sweeps resp chemup in
  0 < ndirs G -> forall cur, In cur sweeps -> forall n places r,
  execution G cur n places -> r < ranks -> ~ panicked (places r).
Proof. exact voronoi_check3. Qed.
Print Assumptions C79_no_false_alarm_voronoi.

(** Every execution ends, and if all ranks or none of them have cells to sweep, then on such a grid all ranks have passed when it ends. *)
Theorem C79_ends : forall G cur n w, execution G cur n w -> n <= 3 * nranks G.
Proof. exact execution_bounded. Qed.
Print Assumptions C79_ends.
Theorem C79_all_pass : forall G cur n w, consistent G -> two_sided G -> acyclic_at G cur -> 0 < ndirs G ->
  ((forall r, r < nranks G -> active_cells G r cur <> []) \/ (forall r, r < nranks G -> active_cells G r cur = [])) ->
  execution G cur n w -> (forall w', ~ step G cur w w') -> forall r, r < nranks G -> w r = Passed.
Proof. exact all_pass. Qed.
Print Assumptions C79_all_pass.

(** Three cells in a row, the middle one on another rank. *)
Definition all_active : config := Sweep_Examples.row (fun _ => 1) [0; 1] 1.
Lemma row_two_sided : forall levels sw b, two_sided (Sweep_Examples.row levels sw b).
Proof.
  intros levels sw b c f p Hc Hf NB. cbn in Hc. destruct Hc as [<- | [<- | [<- | []]]]; cbn in Hf;
    destruct Hf as [<- | [<- | []]]; try discriminate NB; injection NB as <-; cbn; eauto.
Qed.
Example C79_example_meets : consistent all_active /\ two_sided all_active /\ acyclic all_active /\ 0 < ndirs all_active /\
  forall r, r < nranks all_active -> active_cells all_active r 1 <> [].
Proof.
  split; [apply Sweep_Check.consistentb_spec; vm_compute; reflexivity|]. split; [apply row_two_sided|].
  split; [apply (Sweep_Check.acyclicb_spec all_active Sweep_Examples.row_order); vm_compute; reflexivity|]. split; [cbn; lia|].
  intros [|[|r]] Hr; [discriminate | discriminate | cbn in Hr; lia].
Qed.
Definition ended (w : nat -> place) : list place := map w [0; 1].
Ltac both := intros [|[|s]] Hs; [vm_compute; reflexivity | vm_compute; reflexivity | cbn in Hs; lia].
Ltac other := let s := fresh in let Hs := fresh in intros s Hs; cbn in Hs; destruct Hs as [<- | []]; vm_compute; reflexivity.
Example C79_example_run : exists w, execution all_active 1 6 w /\ ended w = [Passed; Passed].
Proof.
  eexists. split.
  - eapply ex_step; [eapply ex_step; [eapply ex_step; [eapply ex_step; [eapply ex_step; [eapply ex_step; [apply ex_start|]|]|]|]|]|].
    + apply (step_enter _ _ _ 0); [cbn; lia | reflexivity].
    + apply (step_enter _ _ _ 1); [cbn; lia | vm_compute; reflexivity].
    + apply (step_sum _ _ _ 0); [cbn; lia | vm_compute; reflexivity | both].
    + apply (step_sum _ _ _ 1); [cbn; lia | vm_compute; reflexivity | both].
    + apply (step_exchange _ _ _ 1); [cbn; lia | vm_compute; reflexivity | other].
    + apply (step_exchange _ _ _ 0); [cbn; lia | vm_compute; reflexivity | other].
  - vm_compute. reflexivity.
Qed.
(** A rank which does not know the right level of a neighbour is found. *)
Example C79_example_differ :
  let wrong := mkConfig 2 (cells all_active) (faces all_active) 2 1 (source all_active) (lev all_active)
    (fun r p => if r =? 1 then Some 2 else Some 1) [0; 1] (resp all_active) (chemup all_active) in
  compare wrong 0 1 = Differ /\ compare wrong 1 1 = Differ /\ compare all_active 0 1 = Passed.
Proof. vm_compute. auto. Qed.

(** But the check does not return on every grid on which the sweep does: a rank without active cells does not take part in the sum
    over all ranks. If one rank has active cells and another has none, no rank ever returns from the check. *)
Theorem C79_idle_rank_hangs : forall G cur n w r s, r < nranks G -> s < nranks G ->
  active_cells G r cur <> [] -> active_cells G s cur = [] ->
  execution G cur n w -> forall t, t < nranks G -> w t <> Passed.
Proof. exact idle_hang. Qed.
Print Assumptions C79_idle_rank_hangs.
Theorem C79_returns_on_every_grid_refuted : exists G cur, consistent G /\ two_sided G /\ acyclic G /\ 0 < ndirs G /\ In cur (sweeps G) /\
  (exists c, In c (cells G) /\ cur <= lev G c) /\
  forall n w, execution G cur n w -> forall r, r < nranks G -> w r <> Passed.
Proof.
  exists (Sweep_Examples.row Sweep_Examples.row_levels [0; 1] 1), 1.
  split; [apply Sweep_Check.consistentb_spec; vm_compute; reflexivity|]. split; [apply row_two_sided|].
  split; [apply (Sweep_Check.acyclicb_spec _ Sweep_Examples.row_order); vm_compute; reflexivity|]. split; [cbn; lia|].
  split; [cbn; auto|]. split; [exists (0, 0); split; [cbn; auto | cbn; lia]|].
  intros n w E r Hr. apply (idle_hang (Sweep_Examples.row Sweep_Examples.row_levels [0; 1] 1) 1 n w 0 1); try (cbn; lia); [discriminate | reflexivity | exact E | exact Hr].
Qed.
Print Assumptions C79_returns_on_every_grid_refuted.

(** Nor does it find every deadlock: neighbours across the periodic boundary are not compared. Here both ranks pass, but rank 0 waits
    for a message of rank 1, which has no face towards a cell of rank 0. *)
Theorem C79_finds_every_deadlock_refuted : exists G cur,
  (exists n w, execution G cur n w /\ forall r, r < nranks G -> w r = Passed) /\
  torecv_init G 0 cur 1 = 1 /\ forall c f p, In c (cells G) -> rank_of c = 1 -> In f (faces G c) -> nb_id (f_nb f) <> Some p.
Proof.
  exists (mkConfig 2 [(0, 0); (1, 0)]
    (fun c => if pid_eqb c (0, 0) then [Sweep_Examples.left (RemotePeriodic (1, 0)); Sweep_Examples.right Boundary] else [Sweep_Examples.left Boundary; Sweep_Examples.right Boundary])
    1 1 (fun _ => 1%Qc) (fun _ => 0) (fun _ _ => Some 0) [0] Sweep_Examples.ex_resp Sweep_Examples.ex_chemup), 0.
  split; [|split].
  - exists 6. eexists. split.
    + eapply ex_step; [eapply ex_step; [eapply ex_step; [eapply ex_step; [eapply ex_step; [eapply ex_step; [apply ex_start|]|]|]|]|]|].
      * apply (step_enter _ _ _ 0); [cbn; lia | reflexivity].
      * apply (step_enter _ _ _ 1); [cbn; lia | vm_compute; reflexivity].
      * apply (step_sum _ _ _ 0); [cbn; lia | vm_compute; reflexivity | both].
      * apply (step_sum _ _ _ 1); [cbn; lia | vm_compute; reflexivity | both].
      * apply (step_exchange _ _ _ 1); [cbn; lia | vm_compute; reflexivity | other].
      * apply (step_exchange _ _ _ 0); [cbn; lia | vm_compute; reflexivity | other].
    + intros [|[|r]] Hr; [vm_compute; reflexivity | vm_compute; reflexivity | cbn in Hr; lia].
  - vm_compute. reflexivity.
  - intros c f p Hc Hr Hf. cbn in Hc. destruct Hc as [<- | [<- | []]]; [discriminate Hr|]. cbn in Hf.
    destruct Hf as [<- | [<- | []]]; discriminate.
Qed.
Print Assumptions C79_finds_every_deadlock_refuted.
