(** The cells of the local particles are those of the particles repeated without end. *)
From Coq Require Import List Arith ZArith QArith Lqa Lia Permutation Setoid Bool.
From Verif Require Geometry_Model.
From Verif Require Import Geometry_Spec Box_Model Box_Spec Tree_Model Circle2_Proofs Tiling2_Proofs Delaunay_Model DelaunayGlobal_Spec DelaunaySurgery_Proofs DelaunayGlobal2_Proofs Halo_Model Halo_Spec HaloGeo_Model
  HaloGeo_Spec HaloDelaunay_Spec HaloDelaunay_Model HaloGeo_Proofs HaloDelaunay_Proofs Voronoi_Model Voronoi_Spec VoronoiRing_Proofs Voronoi_Proofs VoronoiConstruct_Proofs VoronoiGrid_Model VoronoiGrid_Spec VoronoiGrid_Proofs
  VoronoiGridWhole_Proofs VoronoiPeriodic_Proofs.
Import ListNotations.
Local Open Scope Q_scope.

Lemma axis_all X m o c p k : 0 < X -> m <= c < m + X -> - X <= 2 * (o - c) <= X -> m <= p < m + X ->
  (o - (p + X * inject_Z (clamp k))) * (o - (p + X * inject_Z (clamp k))) <= (o - (p + X * inject_Z k)) * (o - (p + X * inject_Z k)).
Proof.
  intros HX [C1 C2] [O1 O2] [P1 P2].
  assert (CK : (k <= -2 \/ 2 <= k \/ (clamp k = k))%Z) by (unfold clamp; lia). destruct CK as [K|[K|E]].
  - replace (clamp k) with (-1)%Z by (unfold clamp; lia). change (inject_Z (-1)) with (-1#1).
    assert (KQ : inject_Z k <= -2#1) by (change (-2#1) with (inject_Z (-2)); rewrite <- Zle_Qle; exact K). set (q := inject_Z k) in *. clearbody q.
    assert (A : 0 < (-1 - q) * X) by (apply qmul_pos; lra). assert (B : 0 <= (-2 - q) * X) by (apply Qmult_le_0_compat; lra).
    assert (Y : 0 < (-1 - q) * X * (2 * (o - p) + X * (1 - q))) by (apply qmul_pos; [exact A|lra]). lra.
  - replace (clamp k) with 1%Z by (unfold clamp; lia). change (inject_Z 1) with (1#1).
    assert (KQ : 2#1 <= inject_Z k) by (change (2#1) with (inject_Z 2); rewrite <- Zle_Qle; exact K). set (q := inject_Z k) in *. clearbody q.
    assert (A : 0 < (q - 1) * X) by (apply qmul_pos; lra). assert (B : 0 <= (q - 2) * X) by (apply Qmult_le_0_compat; lra).
    assert (Y : 0 < (q - 1) * X * (X * (q + 1) - 2 * (o - p))) by (apply qmul_pos; [exact A|lra]). lra.
  - rewrite E. lra.
Qed.

Section Whole.
  Variables (ranks : nat) (box : extent2) (particles : nat -> list (nat * vec2)).
  Hypothesis D : distributed2 ranks box particles.
  Hypothesis square : x2 (max2 box) - x2 (min2 box) == y2 (max2 box) - y2 (min2 box).
  Variables (pop' : nat -> list nat -> nat) (l : list vec2) (whole : triangulation).
  Hypothesis all : all_images2 box particles l.
  Hypothesis built : whole2 box pop' l = Some whole.
  Hypothesis half_open : forall r, Forall (fun p => in_box2 box (snd p)) (particles r).
  Notation P := (whole_point box l).
  Notation n := (num_points whole).
  Notation gx := Geometry_Model.x2. Notation gy := Geometry_Model.y2.
  Notation label := (label box particles l).
  Notation out := (out box l whole).
  Lemma lattice_out o R rc ic c r : out o R -> In (ic, c) (particles rc) -> R == dist2_2 o (to_point2 c) -> lattice2 box particles r -> R <= dist2_2 o r.
  Proof.
    intros O HC ER [rank [id [pos [k1 [k2 [H [E1 E2]]]]]]].
    assert (NE : near box o c).
    { apply (center_near ranks box particles D pop' l whole all built o R rc ic c O HC). rewrite ER. unfold dist2_2, to_point2. cbn [gx gy]. ring. }
    destruct NE as [N1 N2]. destruct (clamp_wrap ranks box particles D pop' l whole built k1) as [wx Ex]. destruct (clamp_wrap ranks box particles D pop' l whole built k2) as [wy Ey].
    pose proof (out_at ranks box particles D pop' l whole all built o R rank id pos wx wy O H) as A. rewrite Ex, Ey in A.
    destruct (in_half box particles half_open _ _ _ HC) as [B1 B2]. destruct (in_half box particles half_open _ _ _ H) as [B3 B4].
    pose proof (axis_all _ _ (gx o) (x2 c) (x2 pos) k1 (X_pos ranks box particles D) B1 N1 B3) as C1.
    pose proof (axis_all _ _ (gy o) (y2 c) (y2 pos) k2 (Y_pos ranks box particles D) B2 N2 B4) as C2.
    unfold dist2_2. rewrite E1, E2, (Qmult_comm (inject_Z k1)), (Qmult_comm (inject_Z k2)). lra.
  Qed.
  Lemma triangle_out a b c o : is_triangle whole a b c -> circumscribed2 (shape2 P a b c) o -> out o (dist2_2 o (P a)).
  Proof.
    intros T CO v Hv. destruct (empty_at ranks box particles D square pop' l whole built a b c T) as [[o' [CO' EM]] [PO _]].
    assert (A : ~ Geometry_Spec.area2 (shape2 P a b c) == 0) by (unfold orient in PO; unfold shape2; intro Z; rewrite Z in PO; lra).
    rewrite !(circle_dist_eq _ o o' _ A CO CO'). destruct CO' as [C1 C2]. unfold shape2 in C1, C2. cbn [Geometry_Model.t2p1 Geometry_Model.t2p2 Geometry_Model.t2p3] in C1, C2.
    destruct (Nat.eq_dec v a) as [->|N1]; [lra|]. destruct (Nat.eq_dec v b) as [->|N2]; [lra|]. destruct (Nat.eq_dec v c) as [->|N3]; [lra|].
    apply Qlt_le_weak. apply EM; tauto.
  Qed.
  (** No corner of the initial triangle is next to a particle. *)
  Lemma corners_inside a b c ra ia : is_triangle whole a b c -> label a ra ia (NoWrap, NoWrap) -> (3 <= b)%nat /\ (3 <= c)%nat.
  Proof.
    intros T LA. destruct (label_base box particles l _ _ _ _ LA) as [pa HA]. destruct (label_coord ranks box particles D l _ _ _ _ _ LA HA) as [E1 E2].
    cbn [fst snd shift_of] in E1, E2. change (inject_Z 0) with 0 in *.
    destruct (empty_at ranks box particles D square pop' l whole built a b c T) as [[o [CO EM]] [PO _]]. pose proof (triangle_out a b c o T CO) as O.
    set (R := dist2_2 o (P a)) in *.
    assert (RA : R == (gx o - x2 pa) * (gx o - x2 pa) + (gy o - y2 pa) * (gy o - y2 pa)) by (unfold R, dist2_2; rewrite E1, E2; ring).
    pose proof (center_near ranks box particles D pop' l whole all built o R ra ia pa O HA RA) as NE.
    destruct CO as [C1 C2]. unfold shape2 in C1, C2. cbn [Geometry_Model.t2p1 Geometry_Model.t2p2 Geometry_Model.t2p3] in C1, C2. fold R in C1, C2.
    split.
    - destruct (Nat.lt_ge_cases b 3) as [L|]; [exfalso|assumption]. pose proof (corner_far ranks box particles D square pop' l whole built half_open o ra ia pa b HA NE L). lra.
    - destruct (Nat.lt_ge_cases c 3) as [L|]; [exfalso|assumption]. pose proof (corner_far ranks box particles D square pop' l whole built half_open o ra ia pa c HA NE L). lra.
  Qed.
End Whole.

Section Rank.
  Local Open Scope nat_scope.
  Variables (ranks : nat) (cfg : config) (build_fuel search_fuel : nat) (pop : nat -> list nat -> nat).
  Variables (box : extent2) (particles order : nat -> list (nat * vec2)).
  Variables (circumcircle : list vec2 -> vec2 * Q) (characteristic_length : Q) (chunk_size : nat).
  Variables (pop' : nat -> list nat -> nat) (l : list vec2) (whole : triangulation) (fuel : nat) (w w' : list rank_state).
  Hypothesis D : distributed2 ranks box particles.
  Hypothesis F : max_depth cfg < build_fuel.
  Hypothesis square : (x2 (max2 box) - x2 (min2 box) == y2 (max2 box) - y2 (min2 box))%Q.
  Hypothesis circles : covers_circles2 to_point2 circumcircle.
  Hypothesis all : all_images2 box particles l.
  Hypothesis built : whole2 box pop' l = Some whole.
  Hypothesis half_open : forall r, Forall (fun p => in_box2 box (snd p)) (particles r).
  Hypothesis start : starts_in_order2 ranks pop particles order (box_remap2 box) (box_outer2 box) w.
  Hypothesis ended : run2 ranks cfg build_fuel search_fuel pop box particles (box_remap2 box) circumcircle characteristic_length chunk_size fuel w = Some (Done w').
  Variables (r : nat) (s : rank_state).
  Hypothesis here : nth_error w' r = Some s.
  Notation local := (order r). Notation n := (length local).
  Let R := rank_is ranks cfg build_fuel search_fuel pop box particles order circumcircle characteristic_length chunk_size D F fuel w w' start ended r s here.
  Let CN := count_is ranks cfg build_fuel search_fuel pop box particles order circumcircle characteristic_length chunk_size D F fuel w w' start ended r s here.
  Let TYI := types_are ranks cfg build_fuel search_fuel pop box particles order circumcircle characteristic_length chunk_size D F fuel w w' start ended r s here.
  Let OUI := outer_is ranks cfg build_fuel search_fuel pop box particles order circumcircle characteristic_length chunk_size D F fuel w w' start ended r s here.
  Let CCW := ccw_is ranks cfg build_fuel search_fuel pop box particles order circumcircle characteristic_length chunk_size D F fuel w w' start ended r s here.
  Let PI := point_image ranks cfg build_fuel search_fuel pop box particles order circumcircle characteristic_length chunk_size D F fuel w w' start ended r s here.
  Notation all_pos := (whole_points box l).
  Theorem periodic_cell k id pos : nth_error local k = Some (id, pos) -> exists c,
    new_cell ptype (Boundary wrap2) (original_point s) (is_outer s) (cell_of_point (point_map local s)) (tri_of s) (3 + k) = Some c /\
    is_infinite c = false /\
    forall x, cell_contains c x = true <-> forall y, lattice2 box particles y -> (dist2_2 x (to_point2 pos) <= dist2_2 x y)%Q.
  Proof.
    intro Hk. assert (KL : k < n) by (apply nth_error_Some; congruence). set (p := 3 + k).
    assert (Hp : 3 <= p < num_points (tri_of s)) by (rewrite CN; unfold p; lia).
    pose proof (nth_local ranks cfg build_fuel search_fuel pop box particles order circumcircle characteristic_length chunk_size D F fuel w w' start ended r s here p (id, pos)) as NP.
    cbn [snd] in NP. replace (p - 3) with k in NP by (unfold p; lia). specialize (NP Hk ltac:(unfold p; lia)).
    assert (HI : In (id, pos) (particles r)) by (apply (local_particles ranks pop box particles order w start r); exact (nth_error_In _ _ Hk)).
    destruct (label_ex ranks box particles D pop' l whole all built r id pos (NoWrap, NoWrap) HI) as [p' LP].
    assert (EP : same_at (points s) all_pos p p').
    { destruct LP as [_ [x [Ex [pos' [I1 I2]]]]]. rewrite (base_fun ranks box particles D r id pos pos' HI I1) in I2. apply in_images2 in I2.
      exists pos, x. split; [exact NP|]. split; [exact Ex|]. rewrite I2. cbn [as_sign]. split; cbn [x2 y2]; ring. }
    pose proof (star_here ranks cfg build_fuel search_fuel pop box particles order circumcircle characteristic_length chunk_size D F fuel w w' start ended square circles
      pop' l whole all built r s here p p' ltac:(unfold p; lia) EP) as [ST _].
    assert (OP : original_point s p = to_point2 pos) by (unfold original_point; now rewrite (nth_error_nth _ _ _ NP)).
    assert (LAT : forall x rank i wr, image_of vec2 wrap2 (images2 box) particles rank i wr x -> lattice2 box particles (to_point2 x)).
    { intros x rank i [wx wy] [ps [I1 I2]]. apply in_images2 in I2. subst x. exists rank, i, ps, (shift_of wx), (shift_of wy). split; [exact I1|].
      cbn [to_point2 Geometry_Model.x2 Geometry_Model.y2 x2 y2 sides2]. rewrite <- !as_sign_shift. split; ring. }
    assert (IN : forall q, neighbour (tri_of s) p q -> 3 <= q < num_points (tri_of s)).
    { intros q N. pose proof (rd_good _ _ _ _ _ R) as G. pose proof (proj1 (neighbour_tri _ _ _ _ G) N) as N'. 
      assert (Lq : q < num_points (tri_of s)).
      { destruct N as [_ [i [t [Ht [_ Hq]]]]]. exact (proj2 (proj2 (iv_corners _ _ _ (gd_inv _ _ G) _ _ Ht)) q Hq). }
      split; [|exact Lq]. destruct (Nat.lt_ge_cases q 3) as [L|]; [exfalso|assumption].
      assert (CC : forall q', same_at (points s) all_pos q q' -> (3 <= q' /\ exists a b, is_triangle whole q' a b) -> False).
      { intros q' [y [y' [E1 [E2 E3]]]] [L3 T].
        rewrite (outer_nth ranks cfg build_fuel search_fuel pop box particles order circumcircle characteristic_length chunk_size D F fuel w w' start ended l r s here q L) in E1.
        assert (q = q'); [|lia]. apply (whole_apart ranks box particles D pop' l whole built q' q y' y E2 E1); [now apply same_position_sym|exact T]. }
      destruct N' as [a [T|T]]; destruct (ST _ _ T) as [b' [c' [T' [SB SC]]]];
        destruct (corners_inside ranks box particles D square pop' l whole all built half_open p' b' c' r id T' LP) as [L1 L2].
      - apply (CC b' SB). split; [exact L1|]. pose proof (is_triangle_rot _ _ _ _ T'). eauto.
      - apply (CC c' SC). split; [exact L2|]. pose proof (is_triangle_rot _ _ _ _ (is_triangle_rot _ _ _ _ T')). eauto. }
    destruct (cell_ok ranks cfg build_fuel search_fuel pop box particles order circumcircle characteristic_length chunk_size D F fuel w w' start ended r s here p Hp) as [c [NC CI]].
    exists c. split; [exact NC|]. split.
    { destruct (is_infinite c) eqn:EI; [exfalso|reflexivity]. apply (cl_infinite _ _ _ _ _ (proj2 CI)) in EI. destruct EI as [q [L N]]. apply IN in N. lia. }
    intro x. rewrite (contains_ok ptype (Boundary wrap2) _ (original_point s) (is_outer s) (cell_of_point (point_map local s)) (type_at order r s) (tri_of s) p
      (rd_good _ _ _ _ _ R) Hp OUI TYI CCW (lattice2 box particles)) with (4 := NC).
    - rewrite OP. reflexivity.
    - intros a b o y T CO LY. destruct (ST _ _ T) as [a' [b' [T' [SA SB]]]].
      assert (CO' : circumscribed2 (shape2 (whole_point box l) p' a' b') o).
      { apply same_points in SA. apply same_points in SB. pose proof (same_points _ _ _ _ EP) as SP. destruct CO as [C1 C2].
        unfold shape2 in *. unfold circumscribed2. cbn [Geometry_Model.t2p1 Geometry_Model.t2p2 Geometry_Model.t2p3] in *.
        assert (DD : forall u u', same_point (at_pos (points s) u) (at_pos all_pos u') -> (dist2_2 o (original_point s u) == dist2_2 o (whole_point box l u'))%Q).
        { intros u u' [X1 X2]. unfold at_pos in X1, X2. unfold dist2_2, original_point, whole_point. rewrite X1, X2. reflexivity. }
        rewrite <- (DD _ _ SA), <- (DD _ _ SB), <- (DD _ _ SP). auto. }
      assert (DP : (dist2_2 o (original_point s p) == dist2_2 o (whole_point box l p'))%Q).
      { pose proof (same_points _ _ _ _ EP) as [X1 X2]. unfold at_pos in X1, X2. unfold dist2_2, original_point, whole_point. rewrite X1, X2. reflexivity. }
      rewrite DP. apply (lattice_out ranks box particles D pop' l whole all built half_open o _ r id pos y); [|exact HI|rewrite <- DP, OP; reflexivity|exact LY].
      exact (triangle_out ranks box particles D square pop' l whole built p' a' b' o T' CO').
    - exact (strict_here ranks cfg build_fuel search_fuel pop box particles order circumcircle characteristic_length chunk_size D F fuel w w' start ended square r s here p).
    - intros q N. destruct (PI q (IN q N)) as [rank [i [wr [y [y' [_ [IM [Ny [[E1 E2] _]]]]]]]]]. apply LAT in IM.
      destruct IM as [rk [i' [ps [k1 [k2 [I1 [F1 F2]]]]]]]. exists rk, i', ps, k1, k2. split; [exact I1|]. unfold original_point. rewrite (nth_error_nth _ _ _ Ny).
      cbn [to_point2 Geometry_Model.x2 Geometry_Model.y2] in *. rewrite E1, E2. auto.
  Qed.
  Theorem periodic_cells : exists cells, rank_cells local s = Some cells /\ forall k id pos, nth_error local k = Some (id, pos) ->
    exists c, nth_error cells k = Some c /\ index c = Local wrap2 id /\ is_infinite c = false /\
      forall x, cell_contains c x = true <-> forall y, lattice2 box particles y -> (dist2_2 x (to_point2 pos) <= dist2_2 x y)%Q.
  Proof.
    destruct (rank_cells_ok ranks cfg build_fuel search_fuel pop box particles order circumcircle characteristic_length chunk_size D F fuel w w' start ended r s here) as [cells [E FA]].
    exists cells. split; [exact E|]. intros k id pos Hk. assert (KL : k < n) by (apply nth_error_Some; congruence).
    destruct (periodic_cell k id pos Hk) as [c [NC [IN CO]]].
    assert (X : forall a m cs, Forall2 (cell_is order r s) (seq a m) cs -> forall k, k < m -> exists c, nth_error cs k = Some c /\ cell_is order r s (a + k) c).
    { clear. intros a m. revert a. induction m as [|m IH]; intros a cs H k Hk; [lia|]. cbn [seq] in H. inversion H as [|x c0 xs cs' H1 H2]; subst.
      destruct k as [|k]; [exists c0; rewrite Nat.add_0_r; auto|]. destruct (IH (S a) cs' H2 k ltac:(lia)) as [c1 [C1 C2]]. exists c1. split; [exact C1|].
      replace (a + S k) with (S a + k) by lia. exact C2. }
    destruct (X _ _ _ FA k ltac:(lia)) as [c' [E1 [E2 E3]]]. rewrite NC in E2. injection E2 as <-. exists c. split; [exact E1|]. split; [|auto].
    rewrite (cl_index _ _ _ _ _ E3).
    apply (in_type ranks cfg build_fuel search_fuel pop box particles order circumcircle characteristic_length chunk_size D F fuel w w' start ended r s here).
    apply (in_map_cases cfg build_fuel order F r s). left. split; [lia|]. exists (id, pos). split; [replace (3 + k - 3) with k by lia; exact Hk|reflexivity].
  Qed.
End Rank.

(** Different particles in the half-open box have different images. *)
Lemma axis_unique X m p p' a b : 0 < X -> m <= p < m + X -> m <= p' < m + X -> p + X * inject_Z a == p' + X * inject_Z b -> a = b.
Proof.
  intros HX [A1 A2] [B1 B2] E.
  assert (N : forall u v, (u < v)%Z -> X * inject_Z u + X <= X * inject_Z v).
  { intros u v H. assert (K : 1 <= inject_Z v - inject_Z u). { unfold Qminus. rewrite <- inject_Z_opp, <- inject_Z_plus. change 1 with (inject_Z 1). rewrite <- Zle_Qle. lia. }
    assert (0 <= X * (inject_Z v - inject_Z u - 1)) by (apply Qmult_le_0_compat; lra). lra. }
  destruct (Z.lt_trichotomy a b) as [L|[L|L]]; [specialize (N a b L); lra|exact L|specialize (N b a L); lra].
Qed.
Lemma distinct_half_open ranks box particles : distributed2 ranks box particles -> (forall r, Forall (fun p => in_box2 box (snd p)) (particles r)) ->
  (forall r x p r' x' p', In (x, p) (particles r) -> In (x', p') (particles r') -> same_position p p' -> r = r' /\ x = x') ->
  distinct_images2 box particles.
Proof.
  intros D HO DI r x [w1 w2] p r' x' [u1 u2] p' [q [I1 I2]] [q' [I3 I4]] [E1 E2]. apply in_images2 in I2. apply in_images2 in I4. subst p p'.
  cbn [x2 y2 sides2] in E1, E2. rewrite !as_sign_shift in E1, E2.
  destruct (in_half box particles HO _ _ _ I1) as [B1 B2]. destruct (in_half box particles HO _ _ _ I3) as [B3 B4].
  pose proof (axis_unique _ _ _ _ _ _ (X_pos ranks box particles D) B1 B3 E1) as S1. pose proof (axis_unique _ _ _ _ _ _ (Y_pos ranks box particles D) B2 B4 E2) as S2.
  rewrite S1 in E1. rewrite S2 in E2. destruct (DI r x q r' x' q' I1 I3) as [-> ->]; [split; lra|].
  apply shift_inj in S1. apply shift_inj in S2. subst. auto.
Qed.
