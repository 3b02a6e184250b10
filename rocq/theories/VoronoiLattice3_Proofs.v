(** The cells of the local particles in space are those of the particles repeated without end. *)
From Coq Require Import List Arith ZArith QArith Lqa Lia Permutation Setoid Bool Reals.
From Verif Require Geometry_Model VoronoiLattice_Proofs VoronoiGrid_Proofs.
From Verif Require Import Geometry_Spec Box_Model Box_Spec Tree_Model Circle2_Proofs Delaunay_Model Delaunay_Spec DelaunayGeo_Model DelaunayGlobal3_Spec Halo_Model Halo_Spec HaloGeo_Model HaloGeo_Spec
  HaloDelaunay3_Model HaloDelaunay3_Spec Sphere3_Proofs DelaunayUnique3_Proofs Tiling3_Proofs Delaunay3_Proofs DelaunayGlobal3_Proofs Halo_Proofs HaloGeo_Proofs HaloDelaunay_Proofs HaloDelaunay3_Proofs VoronoiConstruct3_Proofs
  Voronoi_Model Voronoi_Spec Voronoi_Proofs Voronoi3_Model Voronoi3_Spec Voronoi3_Proofs VoronoiGrid3_Model VoronoiGrid3_Spec VoronoiGrid3_Proofs VoronoiGridWhole3_Proofs VoronoiPeriodic3_Proofs.
Import ListNotations.
Local Open Scope Q_scope.
Notation axis_all := VoronoiLattice_Proofs.axis_all.
Notation axis_unique := VoronoiLattice_Proofs.axis_unique.

Section Whole.
  Variables (ranks : nat) (box : extent3) (particles : nat -> list (nat * vec3)) (outer : list vec3).
  Hypothesis D : distributed3 ranks box particles.
  Hypothesis half_open : forall r, Forall (fun p => Box_Spec.in_box3 box (snd p)) (particles r).
  Notation gx := Geometry_Model.x3. Notation gy := Geometry_Model.y3. Notation gz := Geometry_Model.z3.
  Notation out := (out box particles).
  Lemma lattice_out o R rc ic c r : out o R -> In (ic, c) (particles rc) -> R == dist2_3 o (to_point3 c) -> lattice3 box particles r -> R <= dist2_3 o r.
  Proof.
    intros O HC ER [rank [id [pos [k1 [k2 [k3 [H [E1 [E2 E3]]]]]]]]].
    assert (NE : near box o c).
    { apply (center_near ranks box particles D o R rc ic c O HC). rewrite ER, dk_here. unfold dist2_3, sq, to_point3. cbn [gx gy gz]. ring. }
    destruct NE as [N1 [N2 N3]]. destruct (clamp_wrap k1) as [wx Ex]. destruct (clamp_wrap k2) as [wy Ey]. destruct (clamp_wrap k3) as [wz Ez].
    pose proof (out_at box particles o R rank id pos (wx, wy, wz) O H) as A. cbn [fst snd] in A. rewrite Ex, Ey, Ez in A. unfold dk, sq in A.
    destruct (in_half box particles half_open _ _ _ HC) as [B1 [B2 B3]]. destruct (in_half box particles half_open _ _ _ H) as [B4 [B5 B6]].
    pose proof (axis_all _ _ (gx o) (x3 c) (x3 pos) k1 (X_pos ranks box particles D) B1 N1 B4) as C1.
    pose proof (axis_all _ _ (gy o) (y3 c) (y3 pos) k2 (Y_pos ranks box particles D) B2 N2 B5) as C2.
    pose proof (axis_all _ _ (gz o) (z3 c) (z3 pos) k3 (Z_pos ranks box particles D) B3 N3 B6) as C3.
    unfold dist2_3. rewrite E1, E2, E3, (Qmult_comm (inject_Z k1)), (Qmult_comm (inject_Z k2)), (Qmult_comm (inject_Z k3)). clear - A C1 C2 C3. lra.
  Qed.
  Hypothesis far_corners : far_outer3 box outer.
  Notation site := (site3 box particles outer).
  (** The sphere of a tetrahedron with an empty circumsphere and a corner at a particle. *)
  Lemma tetra_out x y z u o : delaunay_tetra to_point3 site x y z u -> circumscribed3 (Geometry_Model.TT (to_point3 x) (to_point3 y) (to_point3 z) (to_point3 u)) o ->
    forall v, site v -> dist2_3 o (to_point3 x) <= dist2_3 o (to_point3 v).
  Proof.
    intros [NZ [o' [CO' E]]] CO v Sv. rewrite (sphere_dist_eq _ o o' (to_point3 x) NZ CO CO'), (sphere_dist_eq _ o o' (to_point3 v) NZ CO CO').
    assert (RO : same_point3 o' o') by reflexivity.
    destruct CO' as [C1 [C2 C3]]. cbn [Geometry_Model.ttp1 Geometry_Model.ttp2 Geometry_Model.ttp3 Geometry_Model.ttp4] in C1, C2, C3.
    destruct (E v Sv) as [K|[K|[K|[K|K]]]]; [now apply Qlt_le_weak| | | |]; rewrite (dist_same3 o' o' _ _ RO (proj1 (same_to_point _ _) K));
      [|rewrite C1|rewrite C2|rewrite C3]; apply Qle_refl.
  Qed.
  Lemma no_corner x y r i v : In (i, x) (particles r) -> neighbours_in_whole site x y -> In v outer -> ~ same_position3 v y.
  Proof.
    intros HX [z [u [Sz [Su DT]]]] Hv S. pose proof DT as [NZ [o [CO _]]].
    assert (O : out o (dist2_3 o (to_point3 x))) by (intros rv iv wv v' IV; apply (tetra_out x y z u o DT CO); right; eauto).
    assert (RX : dist2_3 o (to_point3 x) == dk box o x 0 0 0) by (rewrite dk_here; unfold dist2_3, sq, to_point3; cbn; ring).
    pose proof (center_near ranks box particles D o _ r i x O HX RX) as NX.
    pose proof (corner_far box particles outer half_open far_corners o r i x v HX NX Hv) as K.
    destruct CO as [C1 _]. cbn [Geometry_Model.ttp1 Geometry_Model.ttp2 Geometry_Model.ttp3 Geometry_Model.ttp4] in C1. assert (RO : same_point3 o o) by reflexivity.
    rewrite <- RX, (dist_same3 o o _ _ RO (proj1 (same_to_point _ _) S)), C1 in K. exact (Qlt_irrefl _ K).
  Qed.
End Whole.

Section Rank.
  Local Open Scope nat_scope.
  Variables (ranks : nat) (cfg : config) (build_fuel search_fuel : nat) (pop : nat -> list nat -> nat).
  Variables (box : extent3) (particles order : nat -> list (nat * vec3)).
  Variables (circumcircle : list vec3 -> vec3 * Q) (characteristic_length : Q) (chunk_size : nat).
  Hypothesis D : distributed3 ranks box particles.
  Hypothesis F : max_depth cfg < build_fuel.
  Variables (remap : vec3 -> Geometry_Model.point3) (outer : list vec3).
  Hypothesis similar : similar3 remap.
  Hypothesis corners : starts_with3 remap outer.
  Hypothesis spheres : covers_spheres3 to_point3 circumcircle.
  Variables (fuel : nat) (w w' : list rank_state).
  Hypothesis start : starts_in_order3 ranks pop particles order remap outer w.
  Hypothesis ended : run3 ranks cfg build_fuel search_fuel pop box particles remap circumcircle characteristic_length chunk_size fuel w = Some (Done w').
  Variable hash_set : list nat -> list nat.
  Hypothesis hash : iterates_set hash_set.
  Hypothesis half_open : forall r, Forall (fun p => Box_Spec.in_box3 box (snd p)) (particles r).
  Hypothesis far_corners : far_outer3 box outer.
  Variables (r : nat) (s : rank_state).
  Hypothesis here : nth_error w' r = Some s.
  Notation local := (order r). Notation n := (length local).
  Notation site := (site3 box particles outer).
  Notation P := (pos_at (points s)).
  Notation outer_is := (outer_is ranks cfg build_fuel search_fuel pop box particles order circumcircle characteristic_length chunk_size F remap outer corners fuel w w' start ended r s here).
  Notation types_are := (types_are ranks cfg build_fuel search_fuel pop box particles order circumcircle characteristic_length chunk_size F remap outer corners fuel w w' start ended r s here).
  Notation count_is := (count_is ranks cfg build_fuel search_fuel pop box particles order circumcircle characteristic_length chunk_size F remap outer corners fuel w w' start ended r s here).
  Notation nth_local := (nth_local ranks cfg build_fuel search_fuel pop box particles order circumcircle characteristic_length chunk_size F remap outer corners fuel w w' start ended r s here).
  Notation view p Hp := (view_here ranks cfg build_fuel search_fuel pop box particles order circumcircle characteristic_length chunk_size D F remap outer similar corners spheres fuel w w' start ended r s here p Hp).
  Lemma image_lattice rank i wr x : image_of vec3 wrap3 (images3 box) particles rank i wr x -> lattice3 box particles (to_point3 x).
  Proof.
    intro I. destruct (image_coord box particles _ _ _ _ I) as [pos [H [A [B C]]]]. destruct wr as [[wx wy] wz]. exists rank, i, pos, (shift_of wx), (shift_of wy), (shift_of wz).
    split; [exact H|]. unfold to_point3. cbn [Geometry_Model.x3 Geometry_Model.y3 Geometry_Model.z3 fst snd] in *. rewrite A, B, C. repeat split; ring.
  Qed.
  Lemma lattice_same p q : same_point3 p q -> lattice3 box particles p -> lattice3 box particles q.
  Proof.
    intros [A [B C]] [rank [i [pos [k1 [k2 [k3 [H [E1 [E2 E3]]]]]]]]]. exists rank, i, pos, k1, k2, k3. split; [exact H|]. rewrite <- A, <- B, <- C. auto.
  Qed.
  Theorem periodic_cell k id pos c : nth_error local k = Some (id, pos) -> cell_is order hash_set r s (4 + k) c ->
    is_infinite3 c = false /\
    forall x, cell_contains3 c x = true <-> forall y, lattice3 box particles y -> (0 < dist2_3 y (to_point3 pos))%Q -> (dist2_3 x (to_point3 pos) < dist2_3 x y)%Q.
  Proof.
    intros Hk CI. assert (KL : k < n) by (apply nth_error_Some; congruence). set (p := 4 + k) in *. pose proof count_is as CN.
    assert (Hp : 4 <= p < 4 + n) by (unfold p; lia). pose proof (view p Hp) as V.
    assert (EP : P p = pos).
    { unfold pos_at. apply nth_error_nth. assert (Hk' : nth_error local (p - 4) = Some (id, pos)) by (unfold p; now replace (4 + k - 4) with k by lia).
      exact (nth_local p (id, pos) Hk' (proj1 Hp)). }
    assert (HI : In (id, pos) (particles r)) by (destruct start as [_ [PM _]]; exact (Permutation_in _ (PM r) (nth_error_In _ _ Hk))).
    (* the neighbours are images *)
    assert (IM : forall q, neighbour (tri_of s) p q -> exists y, same_position3 (P q) y /\ exists rank i wr, image_of vec3 wrap3 (images3 box) particles rank i wr y).
    { intros q N. assert (Lq : q < num_points (tri_of s)).
      { exact (neighbour_in ranks cfg build_fuel search_fuel pop box particles order circumcircle characteristic_length chunk_size F remap outer corners fuel w w' start ended r s here p q N). }
      destruct (sv_sites _ _ _ _ _ V q Lq) as [y [Sy Ey]]. exists y. split; [exact Ey|]. pose proof Sy as Sy'. destruct Sy as [IO|Sy]; [exfalso|exact Sy].
      apply (view_in_whole _ _ _ _ _ similar V q y Lq Sy' Ey) in N. rewrite EP in N.
      exact (no_corner ranks box particles outer D half_open far_corners pos y r id y HI N IO (same_refl3 y)). }
    split.
    { destruct (is_infinite3 c) eqn:EI; [exfalso|reflexivity]. apply (cl3_infinite _ _ _ _ _ (proj2 CI)) in EI. destruct EI as [q [L N]].
      assert (Lq : q < num_points (tri_of s)) by lia.
      assert (IO : In (P q) outer).
      { destruct (ly_points _ _ _ _ (layout_is ranks cfg build_fuel search_fuel pop box particles order circumcircle characteristic_length chunk_size F remap outer corners fuel w w' start ended r s here)) as [hs E].
        unfold pos_at. rewrite E, app_nth1 by (rewrite (proj1 corners); exact L). apply nth_In. rewrite (proj1 corners). exact L. }
      pose proof (proj1 (view_in_whole _ _ _ _ _ similar V q (P q) Lq (or_introl IO) (same_refl3 _)) N) as NW. rewrite EP in NW.
      exact (no_corner ranks box particles outer D half_open far_corners pos (P q) r id (P q) HI NW IO (same_refl3 _)). }
    destruct (scaled_here remap similar s) as [g [k0 [KP [FO FP]]]]. intro x.
    rewrite (contains_ok3 ptype3 (Boundary wrap3) _ (pt_at (points s)) (is_outer3 s) (cell_of_point3 (point_map3 local s)) hash_set (type_at order r s) (tri_of s) p (sv_good _ _ _ _ _ V) (sv_inner _ _ _ _ _ V)
        outer_is types_are hash (view_ccw _ _ _ _ _ similar V) g k0 KP FO (fun v _ => FP v) (lattice3 box particles)) with (c := c).
    - unfold pt_at. rewrite EP. reflexivity.
    - intros a b d o y T CO LY. pose proof (view_tetra _ _ _ _ _ V a b d T) as DT.
      apply (lattice_out ranks box particles D half_open o _ r id pos y); [|exact HI|unfold pt_at; rewrite EP; reflexivity|exact LY].
      intros rv iv wv v IV. unfold pt_at. apply (tetra_out box particles outer _ _ _ _ o DT CO). right. eauto.
    - intros q N. destruct (IM q N) as [y [Ey [rank [i [wr I]]]]]. apply (lattice_same (to_point3 y)); [|exact (image_lattice _ _ _ _ I)].
      unfold pt_at. exact (same_position3_sym _ _ Ey).
    - exact (proj1 CI).
  Qed.
  Theorem periodic_cells3 : exists cells, rank_cells3 hash_set local s = Some cells /\ forall k id pos, nth_error local k = Some (id, pos) ->
    exists c, nth_error cells k = Some c /\ index3 c = Local wrap3 id /\ is_infinite3 c = false /\
      forall x, cell_contains3 c x = true <-> forall y, lattice3 box particles y -> (0 < dist2_3 y (to_point3 pos))%Q -> (dist2_3 x (to_point3 pos) < dist2_3 x y)%Q.
  Proof.
    destruct (rank_cells_ok ranks cfg build_fuel search_fuel pop box particles order circumcircle characteristic_length chunk_size F remap outer similar corners fuel w w' start ended hash_set hash r s here) as [cells [E FA]].
    exists cells. split; [exact E|]. intros k id pos Hk. assert (KL : k < n) by (apply nth_error_Some; congruence).
    assert (X : forall a m cs, Forall2 (cell_is order hash_set r s) (seq a m) cs -> forall k, k < m -> exists c, nth_error cs k = Some c /\ cell_is order hash_set r s (a + k) c).
    { clear. intros a m. revert a. induction m as [|m IH]; intros a cs H k Hk; [lia|]. cbn [seq] in H. inversion H as [|x c0 xs cs' H1 H2]; subst.
      destruct k as [|k]; [exists c0; rewrite Nat.add_0_r; auto|]. destruct (IH (S a) cs' H2 k ltac:(lia)) as [c1 [C1 C2]]. exists c1. split; [exact C1|].
      replace (a + S k) with (S a + k) by lia. exact C2. }
    destruct (X _ _ _ FA k ltac:(lia)) as [c [E1 CI]]. exists c. split; [exact E1|]. split; [|exact (periodic_cell k id pos c Hk CI)].
    rewrite (cl3_index _ _ _ _ _ (proj2 CI)).
    apply (in_type ranks cfg build_fuel search_fuel pop box particles order circumcircle characteristic_length chunk_size F remap outer corners fuel w w' start ended r s here).
    apply (proj2 (in_map_cases cfg build_fuel order F r s _ _)). left. split; [lia|]. exists (id, pos). split; [replace (4 + k - 4) with k by lia; exact Hk|reflexivity].
  Qed.
End Rank.

(** Different particles in the half-open box have different images. *)
Lemma distinct_half_open3 ranks box particles : distributed3 ranks box particles -> (forall r, Forall (fun p => Box_Spec.in_box3 box (snd p)) (particles r)) ->
  (forall r x p r' x' p', In (x, p) (particles r) -> In (x', p') (particles r') -> same_position3 p p' -> r = r' /\ x = x') ->
  distinct_images3 box particles.
Proof.
  intros D HO DI r x w p r' x' u p' H H' [E1 [E2 E3]].
  destruct (image_coord box particles _ _ _ _ H) as [q [I1 [A1 [A2 A3]]]]. destruct (image_coord box particles _ _ _ _ H') as [q' [I3 [C1 [C2 C3]]]].
  rewrite A1, C1 in E1. rewrite A2, C2 in E2. rewrite A3, C3 in E3.
  destruct (in_half box particles HO _ _ _ I1) as [B1 [B2 B3]]. destruct (in_half box particles HO _ _ _ I3) as [B4 [B5 B6]].
  pose proof (axis_unique _ _ _ _ _ _ (X_pos ranks box particles D) B1 B4 E1) as S1. pose proof (axis_unique _ _ _ _ _ _ (Y_pos ranks box particles D) B2 B5 E2) as S2.
  pose proof (axis_unique _ _ _ _ _ _ (Z_pos ranks box particles D) B3 B6 E3) as S3.
  rewrite S1 in E1. rewrite S2 in E2. rewrite S3 in E3. destruct (DI r x q r' x' q' I1 I3) as [-> ->]; [repeat split; lra|].
  apply shift_inj in S1. apply shift_inj in S2. apply shift_inj in S3. destruct w as [[w1 w2] w3], u as [[u1 u2] u3]. cbn [fst snd] in *. subst. auto.
Qed.
