(** The grids of all ranks in space, and the sweep on them. *)
From Coq Require Import List Arith ZArith QArith Qcanon Lqa Lia Permutation Bool Reals.
From Verif Require Geometry_Model Sweep_Model Sweep_Spec Sweep_Safety Sweep_Live2 Sweep_Leave VoronoiGrid_Spec VoronoiGrid_Proofs VoronoiGridFinal_Proofs.
From Verif Require Import Geometry_Spec Box_Model Box_Spec Tree_Model Circle2_Proofs Delaunay_Model Delaunay_Spec DelaunayGeo_Model DelaunayGlobal3_Spec Halo_Model Halo_Spec HaloGeo_Model HaloGeo_Spec
  HaloDelaunay3_Model HaloDelaunay3_Spec Sphere3_Proofs DelaunayUnique3_Proofs Tiling3_Proofs Delaunay3_Proofs DelaunayGlobal3_Proofs Halo_Proofs HaloGeo_Proofs HaloDelaunay_Proofs HaloDelaunay3_Proofs VoronoiConstruct3_Proofs
  Voronoi_Model Voronoi_Spec Voronoi_Proofs Voronoi3_Model Voronoi3_Spec Voronoi3_Proofs VoronoiGrid3_Model VoronoiGrid3_Spec VoronoiGrid3_Proofs VoronoiGridWhole3_Proofs VoronoiPeriodic3_Proofs VoronoiGridSweep3_Proofs.
Import ListNotations.
Local Open Scope nat_scope.

Lemma run_len3 ranks cfg build_fuel search_fuel pop box particles remap circumcircle characteristic_length chunk_size fuel : forall w w',
  run3 ranks cfg build_fuel search_fuel pop box particles remap circumcircle characteristic_length chunk_size fuel w = Some (Done w') -> length w' = length w.
Proof.
  unfold run3. induction fuel as [|fuel IH]; cbn [Halo_Model.run]; intros w w' H; destruct (everyone_finished vec3 wrap3 w); try discriminate; try (injection H as <-; reflexivity).
  match type of H with match ?r with _ => _ end = _ => destruct r as [w1|] eqn:E; [|discriminate] end. rewrite (IH w1 w' H).
  unfold Halo_Model.round in E. match type of E with andthen ?d _ = _ => destruct d as [ds|] eqn:ED; cbn [andthen] in E; [|discriminate] end.
  destruct (deliveries_keep _ _ _ _ _ _ _ _ _ _ _ _ _ ED) as [L _]. rewrite (VoronoiGridFinal_Proofs.map_outcome_len _ _ _ E), combine_length, seq_length, Nat.min_id. exact L.
Qed.

Section Final.
  Variables (ranks : nat) (cfg : config) (build_fuel search_fuel : nat) (pop : nat -> list nat -> nat).
  Variables (box : extent3) (particles order : nat -> list (nat * vec3)).
  Variables (circumcircle : list vec3 -> vec3 * Q) (characteristic_length : Q) (chunk_size : nat).
  Hypothesis D : distributed3 ranks box particles.
  Hypothesis F : max_depth cfg < build_fuel.
  Variables (remap : vec3 -> Geometry_Model.point3) (outer : list vec3).
  Hypothesis similar : similar3 remap.
  Hypothesis corners : starts_with3 remap outer.
  Hypothesis spheres : covers_spheres3 to_point3 circumcircle.
  Variables (fuel : nat) (w w' : list rank_state).
  Hypothesis start : starts_in_order3 ranks pop particles order remap outer w.
  Hypothesis ended : run3 ranks cfg build_fuel search_fuel pop box particles remap circumcircle characteristic_length chunk_size fuel w = Some (Done w').
  Variable hash_set : list nat -> list nat.
  Hypothesis hash : iterates_set hash_set.
  Notation site := (site3 box particles outer).

  Lemma rank_state_of r : r < ranks -> exists s, nth_error w' r = Some s.
  Proof.
    intro H. destruct (nth_error w' r) as [s|] eqn:E; [eauto|]. apply nth_error_None in E. rewrite (run_len3 _ _ _ _ _ _ _ _ _ _ _ _ _ _ ended) in E.
    destruct start as [L _]. lia.
  Qed.
  Notation view r s here p := (view_here ranks cfg build_fuel search_fuel pop box particles order circumcircle characteristic_length chunk_size D F remap outer similar corners spheres fuel w w' start ended r s here p).
  Notation count r s here := (count_is ranks cfg build_fuel search_fuel pop box particles order circumcircle characteristic_length chunk_size F remap outer corners fuel w w' start ended r s here).
  Notation layout r s here := (layout_is ranks cfg build_fuel search_fuel pop box particles order circumcircle characteristic_length chunk_size F remap outer corners fuel w w' start ended r s here).
  Lemma particle_apart r i y v : In (i, y) (particles r) -> In v outer -> ~ same_position3 v y.
  Proof.
    intros HY Hv S. assert (Hr : r < ranks) by (apply (di3_ranks _ _ _ D); intro Z; rewrite Z in HY; destruct HY).
    destruct (rank_state_of r Hr) as [s here].
    assert (HO : In (i, y) (order r)) by (destruct start as [_ [P _]]; exact (Permutation_in _ (Permutation_sym (P r)) HY)).
    apply In_nth_error in HO. destruct HO as [k Hk]. assert (Lk : k < length (order r)) by (apply nth_error_Some; congruence).
    pose proof (view r s here (4 + k) ltac:(lia)) as V.
    assert (E1 : pos_at (points s) (4 + k) = y).
    { unfold pos_at. apply nth_error_nth. assert (Hk' : nth_error (order r) (4 + k - 4) = Some (i, y)) by (now replace (4 + k - 4) with k by lia).
      exact (nth_local ranks cfg build_fuel search_fuel pop box particles order circumcircle characteristic_length chunk_size F remap outer corners fuel w w' start ended r s here (4 + k) (i, y) Hk' ltac:(lia)). }
    apply In_nth_error in Hv. destruct Hv as [j Hj]. assert (Lj : j < 4) by (rewrite <- (proj1 corners); apply nth_error_Some; congruence).
    assert (E2 : pos_at (points s) j = v).
    { destruct (ly_points _ _ _ _ (layout r s here)) as [hs E]. unfold pos_at. rewrite E, app_nth1 by (rewrite (proj1 corners); exact Lj). now apply nth_error_nth. }
    pose proof (count r s here) as CI. assert (j = 4 + k); [|lia].
    apply (view_apart _ _ _ _ _ similar V); [lia|lia|]. rewrite E1, E2. exact S.
  Qed.

  (** The faces of a local cell. *)
  Lemma local_face periodic r s g id c pos f : nth_error w' r = Some s -> construct_grid3 hash_set (order r) s periodic = Some g -> In (id, c) (local_cells3 g) -> In (id, pos) (particles r) ->
    In f (neighbours3 c) -> exists p q f0, 4 <= p < 4 + length (order r) /\ pos_at (points s) p = pos /\ q < num_points (tri_of s) /\ neighbour (tri_of s) p q /\
      run_face ptype3 (Boundary wrap3) (pt_at (points s)) (is_outer3 s) (cell_of_point3 (point_map3 (order r) s)) (type_at order r s) (tri_of s) p q f0 /\ f = shown_face periodic f0.
  Proof.
    intros here EG HC HP Hf.
    destruct (construct_grid_ok ranks cfg build_fuel search_fuel pop box particles order circumcircle characteristic_length chunk_size D F remap outer similar corners fuel w w' start ended hash_set hash r s here periodic)
      as [g' [E [LC _]]]. rewrite EG in E. injection E as <-.
    destruct (Forall2_in_r _ _ _ _ LC HC) as [[x p] [Hx [L1 [L2 [L3 [c0 [L4 L5]]]]]]]. cbn [fst snd] in *.
    apply VoronoiGrid_Proofs.combine_seq in Hx. destruct Hx as [K1 K2]. assert (LN : p - 4 < length (order r)) by (apply nth_error_Some; congruence).
    pose proof (count r s here) as CI.
    destruct (cell_run ranks cfg build_fuel search_fuel pop box particles order circumcircle characteristic_length chunk_size F remap outer similar corners fuel w w' start ended hash_set hash r s here p c0 ltac:(lia) L4) as [qs [_ [IN RF]]].
    rewrite L5 in Hf. cbn [neighbours3 grid_of] in Hf. apply in_map_iff in Hf. destruct Hf as [f0 [<- Hf]]. destruct (Forall2_in_r _ _ _ _ RF Hf) as [q [Hq R]]. apply IN in Hq.
    exists p, q, f0. split; [lia|]. split.
    { unfold pos_at. rewrite (nth_error_nth _ _ _ L2). apply nth_error_In in K2. assert (I : In (id, snd x) (particles r)).
      { rewrite L1. destruct start as [_ [P _]]. apply (Permutation_in _ (P r)). now destruct x. }
      exact (base_fun ranks box particles D r id pos (snd x) HP I). }
    split; [exact (neighbour_in ranks cfg build_fuel search_fuel pop box particles order circumcircle characteristic_length chunk_size F remap outer corners fuel w w' start ended r s here p q Hq)|].
    split; [exact Hq|]. split; [exact R|reflexivity].
  Qed.
  Lemma between_position r s p q f0 periodic y : run_face ptype3 (Boundary wrap3) (pt_at (points s)) (is_outer3 s) (cell_of_point3 (point_map3 (order r) s)) (type_at order r s) (tri_of s) p q f0 ->
    face_between site (pos_at (points s) p) y (shown_face periodic f0) -> same_position3 (pos_at (points s) q) y.
  Proof.
    intros [_ [FF _]] FB. destruct (fb_normal _ _ _ _ FB) as [A [B C]]. cbn [shown_face normal3] in *. rewrite (vf3_normal _ _ _ _ _ _ FF) in A, B, C.
    unfold pt_at, to_point3, Geometry_Model.sub3 in A, B, C. cbn [Geometry_Model.x3 Geometry_Model.y3 Geometry_Model.z3] in A, B, C. repeat split; lra.
  Qed.
  Variables (periodic : bool) (world : nat -> rank_grid3).
  Hypothesis grids : forall r s, nth_error w' r = Some s -> construct_grid3 hash_set (order r) s periodic = Some (world r).
  Notation DT := (delaunay_tetra to_point3 site).
  Lemma areas_agree r1 r2 id1 id2 c1 c2 pos1 pos2 y1 y2 f g t : r1 < ranks -> r2 < ranks ->
    In (id1, c1) (local_cells3 (world r1)) -> In (id1, pos1) (particles r1) -> In (id2, c2) (local_cells3 (world r2)) -> In (id2, pos2) (particles r2) ->
    In f (neighbours3 c1) -> In g (neighbours3 c2) -> face_between site pos1 y1 f -> face_between site pos2 y2 g ->
    moved3 t y1 pos2 -> moved3 t pos1 y2 ->
    (forall z u, site z -> site u -> DT pos1 y1 z u -> exists z' u', site z' /\ site u' /\ moved3 t z z' /\ moved3 t u u' /\ DT pos2 y2 z' u') ->
    (forall z' u', site z' -> site u' -> DT pos2 y2 z' u' -> exists z u, site z /\ site u /\ moved3 t z z' /\ moved3 t u u' /\ DT pos1 y1 z u) ->
    face_area f = face_area g.
  Proof.
    intros R1 R2 C1 H1 C2 H2 Hf Hg FB1 FB2 M1 M2 FW BW. destruct (rank_state_of r1 R1) as [s1 here1]. destruct (rank_state_of r2 R2) as [s2 here2].
    destruct (local_face periodic r1 s1 _ id1 c1 pos1 f here1 (grids r1 s1 here1) C1 H1 Hf) as [p1 [q1 [f0 [P1 [E1 [Q1 [N1 [RF1 ->]]]]]]]].
    destruct (local_face periodic r2 s2 _ id2 c2 pos2 g here2 (grids r2 s2 here2) C2 H2 Hg) as [p2 [q2 [g0 [P2 [E2 [Q2 [N2 [RF2 ->]]]]]]]].
    subst pos1 pos2. pose proof (between_position _ _ _ _ _ _ _ RF1 FB1) as S1. pose proof (between_position _ _ _ _ _ _ _ RF2 FB2) as S2.
    change (face_area f0 = face_area g0).
    assert (PR : forall x y y' z u, same_position3 y y' -> DT x y z u -> DT x y' z u).
    { intros x y y' z u S H. exact (delaunay_tetra_proper to_point3 same_to_point site _ _ _ _ _ _ _ _ (same_refl3 _) S (same_refl3 _) (same_refl3 _) H). }
    refine (two_area ptype3 remap remap site similar similar (points s1) (points s2) (tri_of s1) (tri_of s2) p1 p2 q1 q2 t (view r1 s1 here1 p1 P1) (view r2 s2 here2 p2 P2) Q1 Q2 _ _ _ _
      _ _ _ _ _ _ _ _ f0 g0 N1 RF1 RF2).
    - exact (moved_same _ _ _ _ _ (same_position3_sym _ _ S1) (same_refl3 _) M1).
    - exact (moved_same _ _ _ _ _ (same_refl3 _) (same_position3_sym _ _ S2) M2).
    - intros z u Sz Su H. destruct (FW z u Sz Su (PR _ _ _ _ _ S1 H)) as [z' [u' [Sz' [Su' [MZ [MU H']]]]]]. exists z', u'. repeat (split; [assumption|]). exact (PR _ _ _ _ _ (same_position3_sym _ _ S2) H').
    - intros z' u' Sz Su H. destruct (BW z' u' Sz Su (PR _ _ _ _ _ S2 H)) as [z [u [Sz' [Su' [MZ [MU H']]]]]]. exists z, u. repeat (split; [assumption|]). exact (PR _ _ _ _ _ (same_position3_sym _ _ S1) H').
  Qed.

  Hypothesis distinct : distinct_images3 box particles.
  Hypothesis half_open : periodic = true -> forall r, Forall (fun p => Box_Spec.in_box3 box (snd p)) (particles r).
  Hypothesis far_corners : periodic = true -> far_outer3 box outer.
  Variables (round : R -> Qc) (dirs : list Geometry_Model.point3) (batch : nat) (source : nat * nat -> Qc) (lev : nat * nat -> nat) (sweeps : list nat).
  Variables (resp : nat * nat -> list Qc -> Qc -> Qc) (chemup : nat * nat -> list Qc -> Qc -> list Qc).
  Hypothesis round_pos : forall x, (0 < x)%R -> (0 < round x)%Qc.
  Notation G := (sweep_config3 round world ranks dirs batch source lev sweeps resp chemup).
  Lemma world_ok r : r < ranks -> map fst (local_cells3 (world r)) = map fst (order r) /\
    (forall id c, In (id, c) (local_cells3 (world r)) -> exists pos, In (id, pos) (particles r) /\ whole_cell3 box particles outer periodic r pos c) /\
    (forall q x, In (q, x) (halo_ids3 (world r)) <-> exists e f, In e (local_cells3 (world r)) /\ In f (neighbours3 (snd e)) /\
       (connection3 f = Remote wrap3 x q \/ exists wr, connection3 f = RemotePeriodic wrap3 x q wr)).
  Proof.
    intro Hr. destruct (rank_state_of r Hr) as [s Hs].
    destruct (grid_whole ranks cfg build_fuel search_fuel pop box particles order circumcircle characteristic_length chunk_size D F remap outer similar corners spheres fuel w w' start ended hash_set hash r s Hs periodic) as [g [E X]].
    rewrite (grids r s Hs) in E. injection E as <-. exact X.
  Qed.
  Lemma world_ids r : r < ranks -> Permutation (map fst (local_cells3 (world r))) (map fst (particles r)).
  Proof. intro Hr. rewrite (proj1 (world_ok r Hr)). apply Permutation_map. apply start. Qed.
  Notation cells r Hr := (proj1 (proj2 (world_ok r Hr))).
  Theorem voronoi_sweep3 : Sweep_Spec.consistent G /\ Sweep_Spec.acyclic G /\ (periodic = false -> Sweep_Spec.non_periodic G).
  Proof.
    split; [|split].
    - exact (grid_consistent ranks box particles outer D distinct periodic world half_open far_corners particle_apart world_ids (fun r Hr => cells r Hr) (fun r Hr => proj2 (proj2 (world_ok r Hr)))
        round round_pos dirs batch source lev sweeps resp chemup).
    - eapply grid_acyclic; try eassumption; [exact particle_apart|exact world_ids|exact (fun r Hr => cells r Hr)].
    - eapply grid_non_periodic; try eassumption; [exact world_ids|exact (fun r Hr => cells r Hr)].
  Qed.
  Theorem voronoi_mutual3 : (forall c f, In c (Sweep_Model.cells G) -> In f (Sweep_Model.faces G c) -> (0 < Sweep_Model.f_area f)%Qc) /\
    forall c p f across, In c (Sweep_Model.cells G) -> In f (Sweep_Model.faces G c) -> Sweep_Model.f_nb f = seen_from (fst c) p across ->
    exists g, In g (Sweep_Model.faces G p) /\ Sweep_Model.f_nb g = seen_from (fst p) c across /\ Sweep_Model.f_area g = Sweep_Model.f_area f /\
      forall d, Sweep_Model.f_dot g d = (- Sweep_Model.f_dot f d)%Qc.
  Proof.
    split.
    - eapply G_area; try eassumption; [exact world_ids|exact (fun r Hr => cells r Hr)].
    - eapply grid_mutual; try eassumption; [exact particle_apart|exact world_ids|exact (fun r Hr => cells r Hr)|exact areas_agree].
  Qed.
  Theorem voronoi_sweeps_finish3 i o p x sched : Sweep_Live2.fair G sched ->
    exists S0 len S, Sweep_Model.init G i o p x = Some S0 /\ Sweep_Model.exec G S0 (map sched (seq 0 len)) = Some S /\ Sweep_Model.finished G S.
  Proof.
    intro Hf. destruct voronoi_sweep3 as [C [A _]]. destruct (Sweep_Safety.never_panics G C i o p x []) as (S0 & S1 & I0 & _).
    destruct (Sweep_Leave.fair_terminates G C A i o p x S0 sched 0) as (len & S & E & FI); auto.
    - exists S0, []. split; [exact I0|reflexivity].
    - exists S0, len, S. auto.
  Qed.
End Final.
