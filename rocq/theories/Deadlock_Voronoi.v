(** The check for deadlocks on the grids made of Voronoi cells. *)
From Coq Require Import List Arith ZArith QArith Qcanon Reals.
From Verif Require Geometry_Model Sweep_Model Sweep_Spec Deadlock_Model Deadlock_Spec Deadlock_Proofs.
From Verif Require Import Geometry_Spec Box_Model Box_Spec Tree_Model Delaunay_Model DelaunayGlobal3_Spec Halo_Model Halo_Spec HaloGeo_Model HaloGeo_Spec
  HaloDelaunay3_Spec HaloDelaunay3_Model Voronoi3_Model Voronoi3_Spec VoronoiGrid_Spec VoronoiGrid3_Model VoronoiGrid3_Spec VoronoiGrid3_Proofs VoronoiGridWhole3_Proofs VoronoiGridFinal3_Proofs.
Import ListNotations.
Local Open Scope nat_scope.

Lemma mutual_two_sided : forall G, Sweep_Spec.consistent G ->
  (forall c p f across, In c (Sweep_Model.cells G) -> In f (Sweep_Model.faces G c) -> Sweep_Model.f_nb f = seen_from (fst c) p across ->
   exists g, In g (Sweep_Model.faces G p) /\ Sweep_Model.f_nb g = seen_from (fst p) c across) ->
  Deadlock_Spec.two_sided G.
Proof.
  intros G C M c f p Hc Hf NB.
  destruct (Sweep_Spec.c_remote G C c f p Hc Hf (or_introl NB)) as (_ & Hne & _). unfold Sweep_Model.rank_of in Hne.
  destruct (M c p f false Hc Hf) as (g & Hg & NBg).
  - rewrite NB. unfold seen_from. apply Nat.eqb_neq in Hne. now rewrite Hne.
  - exists g. split; [exact Hg|]. rewrite NBg. unfold seen_from. apply not_eq_sym, Nat.eqb_neq in Hne. now rewrite Hne.
Qed.

Theorem voronoi_check3 : forall ranks cfg build_fuel search_fuel pop box particles order circumcircle characteristic_length chunk_size,
  distributed3 ranks box particles -> max_depth cfg < build_fuel -> forall remap outer, similar3 remap -> starts_with3 remap outer ->
  covers_spheres3 to_point3 circumcircle -> forall fuel w w',
  starts_in_order3 ranks pop particles order remap outer w ->
  run3 ranks cfg build_fuel search_fuel pop box particles remap circumcircle characteristic_length chunk_size fuel w = Some (Done w') ->
  forall hash_set, iterates_set hash_set -> forall periodic world,
  (forall r s, nth_error w' r = Some s -> construct_grid3 hash_set (order r) s periodic = Some (world r)) ->
  distinct_images3 box particles ->
  (periodic = true -> forall r, Forall (fun p => Box_Spec.in_box3 box (snd p)) (particles r)) ->
  (periodic = true -> far_outer3 box outer) ->
  forall round dirs batch source lev sweeps resp chemup, (forall x, (0 < x)%R -> (0 < round x)%Qc) ->
  let G := sweep_config3 round world ranks dirs batch source lev sweeps resp chemup in
  0 < Sweep_Model.ndirs G -> forall cur, In cur sweeps -> forall n places r,
  Deadlock_Model.execution G cur n places -> r < ranks -> ~ Deadlock_Spec.panicked (places r).
Proof.
  intros ranks cfg build_fuel search_fuel pop box particles order circumcircle characteristic_length chunk_size D F remap outer S St C fuel w w' St' Run
    hash_set HS periodic world Gr Di Ho Fa round dirs batch source lev sweeps resp chemup Ro G Hd cur Hcur n places r E Hr.
  destruct (voronoi_sweep3 ranks cfg build_fuel search_fuel pop box particles order circumcircle characteristic_length chunk_size D F remap outer S St C fuel w w' St' Run
    hash_set HS periodic world Gr Di Ho Fa round dirs batch source lev sweeps resp chemup Ro) as (Co & Ac & _).
  destruct (voronoi_mutual3 ranks cfg build_fuel search_fuel pop box particles order circumcircle characteristic_length chunk_size D F remap outer S St C fuel w w' St' Run
    hash_set HS periodic world Gr Di Ho Fa round dirs batch source lev sweeps resp chemup Ro) as (_ & M).
  apply (Deadlock_Proofs.no_alarm G Co) with (cur := cur) (n := n); auto.
  apply mutual_two_sided; [exact Co|]. intros c p f across Hc Hf NB. destruct (M c p f across Hc Hf NB) as (g & Hg & NBg & _). eauto.
Qed.
