(** The grids of all ranks, and the sweep on them. *)
From Coq Require Import List Arith ZArith QArith Qcanon Lia Permutation.
From Verif Require Geometry_Model Sweep_Model Sweep_Spec Sweep_Safety Sweep_Live2 Sweep_Leave.
From Verif Require Import Geometry_Spec Box_Model Box_Spec Tree_Model Delaunay_Model DelaunayGlobal_Spec Halo_Model Halo_Spec HaloGeo_Model HaloGeo_Spec HaloDelaunay_Spec
  HaloDelaunay_Model Halo_Proofs HaloDelaunay_Proofs Voronoi_Model Voronoi_Spec VoronoiGrid_Model VoronoiGrid_Spec VoronoiGrid_Proofs VoronoiGridWhole_Proofs VoronoiPeriodic_Proofs VoronoiGridSweep_Proofs.
Import ListNotations.
Local Open Scope nat_scope.

Lemma map_outcome_len {A B} (f : A -> outcome B) l : forall r, map_outcome f l = Done r -> length r = length l.
Proof.
  induction l as [|a l IH]; cbn [map_outcome]; intros r H; [injection H as <-; reflexivity|].
  destruct (f a); cbn [andthen] in H; [|discriminate]. destruct (map_outcome f l) as [r'|]; cbn [andthen] in H; [|discriminate].
  injection H as <-. cbn. now rewrite (IH r').
Qed.
Lemma run_len ranks cfg build_fuel search_fuel pop box particles remap circumcircle characteristic_length chunk_size fuel : forall w w',
  run2 ranks cfg build_fuel search_fuel pop box particles remap circumcircle characteristic_length chunk_size fuel w = Some (Done w') -> length w' = length w.
Proof.
  unfold run2. induction fuel as [|fuel IH]; cbn [Halo_Model.run]; intros w w' H; destruct (everyone_finished vec2 wrap2 w); try discriminate; try (injection H as <-; reflexivity).
  match type of H with match ?r with _ => _ end = _ => destruct r as [w1|] eqn:E; [|discriminate] end. rewrite (IH w1 w' H).
  unfold Halo_Model.round in E. match type of E with andthen ?d _ = _ => destruct d as [ds|] eqn:ED; cbn [andthen] in E; [|discriminate] end.
  destruct (deliveries_keep _ _ _ _ _ _ _ _ _ _ _ _ _ ED) as [L _]. rewrite (map_outcome_len _ _ _ E), combine_length, seq_length, Nat.min_id. exact L.
Qed.

Section Final.
  Variables (ranks : nat) (cfg : config) (build_fuel search_fuel : nat) (pop : nat -> list nat -> nat).
  Variables (box : extent2) (particles order : nat -> list (nat * vec2)).
  Variables (circumcircle : list vec2 -> vec2 * Q) (characteristic_length : Q) (chunk_size : nat).
  Variables (pop' : nat -> list nat -> nat) (l : list vec2) (whole : triangulation) (fuel : nat) (w w' : list rank_state).
  Variables (periodic : bool) (world : nat -> rank_grid).
  Hypothesis D : distributed2 ranks box particles.
  Hypothesis F : max_depth cfg < build_fuel.
  Hypothesis square : (x2 (max2 box) - x2 (min2 box) == y2 (max2 box) - y2 (min2 box))%Q.
  Hypothesis circles : covers_circles2 to_point2 circumcircle.
  Hypothesis all : all_images2 box particles l.
  Hypothesis distinct : distinct_images2 box particles.
  Hypothesis built : whole2 box pop' l = Some whole.
  Hypothesis start : starts_in_order2 ranks pop particles order (box_remap2 box) (box_outer2 box) w.
  Hypothesis ended : run2 ranks cfg build_fuel search_fuel pop box particles (box_remap2 box) circumcircle characteristic_length chunk_size fuel w = Some (Done w').
  Hypothesis half_open : periodic = true -> forall r, Forall (fun p => in_box2 box (snd p)) (particles r).
  Hypothesis grids : forall r s, nth_error w' r = Some s -> construct_grid (order r) s periodic = Some (world r).

  Lemma rank_state_of r : r < ranks -> exists s, nth_error w' r = Some s.
  Proof.
    intro H. destruct (nth_error w' r) as [s|] eqn:E; [eauto|]. apply nth_error_None in E. rewrite (run_len _ _ _ _ _ _ _ _ _ _ _ _ _ _ ended) in E.
    destruct start as [L _]. lia.
  Qed.
  Variables (root : Qc -> Qc) (dirs : list Geometry_Model.point2) (batch : nat) (source : nat * nat -> Qc) (lev : nat * nat -> nat) (sweeps : list nat).
  Variables (resp : nat * nat -> list Qc -> Qc -> Qc) (chemup : nat * nat -> list Qc -> Qc -> list Qc).
  Hypothesis root_pos : forall x, (0 < x)%Qc -> (0 < root x)%Qc.
  Notation G := (sweep_config root world ranks dirs batch source lev sweeps resp chemup).
  Theorem voronoi_sweep : Sweep_Spec.consistent G /\ Sweep_Spec.acyclic G /\ (periodic = false -> Sweep_Spec.non_periodic G).
  Proof.
    assert (GH : forall r, r < ranks -> map fst (local_cells (world r)) = map fst (order r) /\
      (forall id pos c v x, In (id, c) (local_cells (world r)) -> In (id, pos) (particles r) -> nth_error (whole_points box l) v = Some x -> same_position pos x ->
         whole_cell box particles l whole periodic r v c) /\
      (forall q x, In (q, x) (halo_ids (world r)) <-> exists e f, In e (local_cells (world r)) /\ In f (neighbours (snd e)) /\
         (connection f = Remote wrap2 x q \/ exists wr, connection f = RemotePeriodic wrap2 x q wr))).
    { intros r Hr. destruct (rank_state_of r Hr) as [s Hs].
      destruct (grid_here ranks cfg build_fuel search_fuel pop box particles order circumcircle characteristic_length chunk_size D F fuel w w' start ended square circles
        pop' l whole all built distinct r s Hs periodic) as [g [E X]]. rewrite (grids r s Hs) in E. injection E as <-. exact X. }
    assert (I : forall r, r < ranks -> Permutation (map fst (local_cells (world r))) (map fst (particles r))).
    { intros r Hr. rewrite (proj1 (GH r Hr)). apply Permutation_map. apply start. }
    assert (WC := fun r Hr => proj1 (proj2 (GH r Hr))). assert (HA := fun r Hr => proj2 (proj2 (GH r Hr))).
    split; [|split].
    - apply (grid_consistent ranks box particles D square pop' l whole all built distinct periodic world half_open I WC HA root root_pos).
    - eapply grid_acyclic; eassumption.
    - eapply grid_non_periodic; eassumption.
  Qed.
  Theorem voronoi_mutual : (forall c f, In c (Sweep_Model.cells G) -> In f (Sweep_Model.faces G c) -> (0 < Sweep_Model.f_area f)%Qc) /\
    forall c p f across, In c (Sweep_Model.cells G) -> In f (Sweep_Model.faces G c) -> Sweep_Model.f_nb f = seen_from (fst c) p across ->
    exists g, In g (Sweep_Model.faces G p) /\ Sweep_Model.f_nb g = seen_from (fst p) c across /\ Sweep_Model.f_area g = Sweep_Model.f_area f /\
      forall d, Sweep_Model.f_dot g d = (- Sweep_Model.f_dot f d)%Qc.
  Proof.
    assert (GH : forall r, r < ranks -> map fst (local_cells (world r)) = map fst (order r) /\
      (forall id pos c v x, In (id, c) (local_cells (world r)) -> In (id, pos) (particles r) -> nth_error (whole_points box l) v = Some x -> same_position pos x ->
         whole_cell box particles l whole periodic r v c) /\
      (forall q x, In (q, x) (halo_ids (world r)) <-> exists e f, In e (local_cells (world r)) /\ In f (neighbours (snd e)) /\
         (connection f = Remote wrap2 x q \/ exists wr, connection f = RemotePeriodic wrap2 x q wr))).
    { intros r Hr. destruct (rank_state_of r Hr) as [s Hs].
      destruct (grid_here ranks cfg build_fuel search_fuel pop box particles order circumcircle characteristic_length chunk_size D F fuel w w' start ended square circles
        pop' l whole all built distinct r s Hs periodic) as [g [E X]]. rewrite (grids r s Hs) in E. injection E as <-. exact X. }
    assert (I : forall r, r < ranks -> Permutation (map fst (local_cells (world r))) (map fst (particles r))).
    { intros r Hr. rewrite (proj1 (GH r Hr)). apply Permutation_map. apply start. }
    assert (WC := fun r Hr => proj1 (proj2 (GH r Hr))). assert (HA := fun r Hr => proj2 (proj2 (GH r Hr))).
    split.
    - eapply G_area; eassumption.
    - intros c p f across Hc Hf NB. exact (grid_mutual ranks box particles D square pop' l whole all built distinct periodic world half_open I WC root dirs batch source lev sweeps resp chemup c p f across Hc Hf NB).
  Qed.
  Theorem voronoi_sweeps_finish i o p x sched : Sweep_Live2.fair G sched ->
    exists S0 len S, Sweep_Model.init G i o p x = Some S0 /\ Sweep_Model.exec G S0 (map sched (seq 0 len)) = Some S /\ Sweep_Model.finished G S.
  Proof.
    intro Hf. destruct voronoi_sweep as [C [A _]]. destruct (Sweep_Safety.never_panics G C i o p x []) as (S0 & S1 & I0 & _).
    destruct (Sweep_Leave.fair_terminates G C A i o p x S0 sched 0) as (len & S & E & FI); auto.
    - exists S0, []. split; [exact I0|reflexivity].
    - exists S0, len, S. auto.
  Qed.
End Final.
