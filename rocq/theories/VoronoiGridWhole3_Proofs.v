(** The cells of a rank in space are the Voronoi cells of all particles and their images. *)
From Coq Require Import List Arith QArith Lqa Lia Permutation Setoid Bool Reals.
From Verif Require Geometry_Model VoronoiGrid_Proofs.
From Verif Require Import Geometry_Spec Box_Model Box_Spec Tree_Model Circle2_Proofs Tiling2_Proofs Delaunay_Model Delaunay_Spec DelaunaySurgery_Proofs DelaunayGeo_Model
  DelaunayGlobal3_Spec Halo_Model Halo_Spec HaloGeo_Model HaloGeo_Spec DelaunayRemap3_Model HaloDelaunay3_Model HaloDelaunay3_Spec
  Sphere3_Proofs Tiling3_Proofs Delaunay3_Proofs DelaunayInsert_Proofs Delaunay3Insert_Proofs DelaunayLink3_Proofs DelaunayGlobal3_Proofs DelaunayUnique3_Proofs DelaunayRemap3_Proofs
  DelaunayStar3_Proofs VoronoiConstruct3_Proofs Halo_Proofs HaloGeo_Proofs HaloFinal_Proofs HaloDelaunay_Proofs HaloDelaunay3_Proofs
  Voronoi_Model Voronoi_Spec Voronoi_Proofs VoronoiConstruct_Proofs VoronoiRing_Proofs VoronoiRing3_Proofs Voronoi3_Model Voronoi3_Spec Voronoi3_Proofs VoronoiGrid3_Model VoronoiGrid3_Spec VoronoiGrid3_Proofs.
Import ListNotations.
Local Open Scope nat_scope.

Lemma good_distinct3 pts s : DelaunayGlobal3_Proofs.good3 pts s -> forall k k', k < num_points s -> k' < num_points s -> same_point3 (pts k) (pts k') -> k = k'.
Proof.
  intros G k k' Lk Lk' E. pose proof (g3_tiling _ _ G) as L. destruct (t3_cover _ _ _ L (pts k) (t3_big _ _ _ L k Lk)) as [i [e [f [g [h [T K]]]]]].
  pose proof (t3_corner _ _ _ L _ _ _ _ _ k T Lk K) as M. rewrite E in K. pose proof (t3_corner _ _ _ L _ _ _ _ _ k' T Lk' K) as M'.
  pose proof (t3_pos _ _ _ L _ _ _ _ _ T) as P0.
  assert (A : forall a b c d, (0 < orient3 (pts a) (pts b) (pts c) (pts d))%Q -> ~ same_point3 (pts a) (pts b) /\ ~ same_point3 (pts a) (pts c) /\ ~ same_point3 (pts a) (pts d) /\
    ~ same_point3 (pts b) (pts c) /\ ~ same_point3 (pts b) (pts d) /\ ~ same_point3 (pts c) (pts d)).
  { clear. intros a b c d P0. generalize dependent (pts a). generalize (pts b), (pts c), (pts d). clear. intros B C D A P0.
    repeat split; intro S; [rewrite S in P0; assert (orient3 B B C D == 0)%Q by (apply o3_first)|
      rewrite S in P0; assert (orient3 C B C D == 0)%Q by (apply o3_outer)|rewrite S in P0; assert (orient3 D B C D == 0)%Q by (apply o3_same)|
      rewrite S in P0; assert (orient3 A C C D == 0)%Q by (apply o3_inner)|rewrite S in P0; assert (orient3 A D C D == 0)%Q by (apply o3_same)|
      rewrite S in P0; assert (orient3 A B D D == 0)%Q by (apply o3_same)]; lra. }
  destruct (A _ _ _ _ P0) as [N1 [N2 [N3 [N4 [N5 N6]]]]]. assert (E' := symmetry E).
  destruct M as [->|[->|[->| ->]]]; destruct M' as [->|[->|[->| ->]]]; try reflexivity; contradiction.
Qed.

Lemma same_refl3 x : same_position3 x x.
Proof. repeat split; reflexivity. Qed.
Lemma same_to_point p q : same_position3 p q <-> same_point3 (to_point3 p) (to_point3 q).
Proof. reflexivity. Qed.
Lemma dist_same3 o o' p p' : same_point3 o o' -> same_point3 p p' -> (dist2_3 o p == dist2_3 o' p')%Q.
Proof. intros [A [B C]] [A' [B' C']]. unfold dist2_3. rewrite A, B, C, A', B', C'. reflexivity. Qed.
Lemma circ_same3 a b c d a' b' c' d' o : same_point3 a a' -> same_point3 b b' -> same_point3 c c' -> same_point3 d d' ->
  circumscribed3 (Geometry_Model.TT a b c d) o -> circumscribed3 (Geometry_Model.TT a' b' c' d') o.
Proof.
  intros A B C D [H1 [H2 H3]]. cbn [Geometry_Model.ttp1 Geometry_Model.ttp2 Geometry_Model.ttp3 Geometry_Model.ttp4] in *.
  assert (R : same_point3 o o) by reflexivity.
  unfold circumscribed3. cbn [Geometry_Model.ttp1 Geometry_Model.ttp2 Geometry_Model.ttp3 Geometry_Model.ttp4].
  rewrite <- (dist_same3 o o _ _ R A), <- (dist_same3 o o _ _ R B), <- (dist_same3 o o _ _ R C), <- (dist_same3 o o _ _ R D). auto.
Qed.
Lemma circ_swap3 a b c d o : circumscribed3 (Geometry_Model.TT a b c d) o -> circumscribed3 (Geometry_Model.TT a b d c) o.
Proof. intros [H1 [H2 H3]]. split; [|split]; assumption. Qed.

(** ** A point of a triangulation around which the tetrahedra are those of the whole *)
Definition pos_at (pos : list vec3) (v : nat) : vec3 := nth v pos (V3 0 0 0).
Definition pt_at (pos : list vec3) (v : nat) : Geometry_Model.point3 := to_point3 (pos_at pos v).
Record star_view (remap : vec3 -> Geometry_Model.point3) (site : vec3 -> Prop) (pos : list vec3) (t : triangulation) (p : nat) : Prop := {
  sv_good : DelaunayGlobal3_Proofs.good3 (positions3 remap pos) t;
  sv_count : num_points t = length pos;
  sv_inner : 4 <= p < num_points t;
  sv_star : tetras_around to_point3 site pos t p (pos_at pos p);
  sv_sites : forall v, v < num_points t -> exists y, site y /\ same_position3 (pos_at pos v) y
}.
Section View.
  Variables (remap : vec3 -> Geometry_Model.point3) (site : vec3 -> Prop) (pos : list vec3) (t : triangulation) (p : nat).
  Hypothesis similar : similar3 remap.
  Hypothesis V : star_view remap site pos t p.
  Notation P := (pos_at pos).
  Notation pt := (pt_at pos).
  Let G := sv_good _ _ _ _ _ V.
  Let inner := sv_inner _ _ _ _ _ V.
  Lemma view_ccw i a b c d : tet t i a b c d -> (0 < orient3 (pt a) (pt b) (pt c) (pt d))%Q.
  Proof.
    intro H. pose proof (t3_pos _ _ _ (g3_tiling _ _ G) _ _ _ _ _ H) as PO.
    destruct (similar_orient3 remap similar) as [f [k [KP [E FO]]]]. unfold positions3 in PO. rewrite !E, FO in PO. exact (pos_factor _ _ KP PO).
  Qed.
  Lemma view_apart v v' : v < num_points t -> v' < num_points t -> same_position3 (P v) (P v') -> v = v'.
  Proof. intros A B S. apply (good_distinct3 _ _ G _ _ A B). exact (proj1 (similar_same3 remap similar _ _) S). Qed.
  Lemma at_pos v y : (exists y', nth_error pos v = Some y' /\ same_position3 y' y) <-> v < num_points t /\ same_position3 (P v) y.
  Proof.
    rewrite (sv_count _ _ _ _ _ V). split.
    - intros [y' [E S]]. split; [apply nth_error_Some; congruence|]. unfold pos_at. now rewrite (nth_error_nth _ _ _ E).
    - intros [L S]. exists (P v). split; [|exact S]. destruct (nth_error pos v) as [u|] eqn:E; [|apply nth_error_None in E; lia]. f_equal. unfold pos_at. now rewrite (nth_error_nth _ _ _ E).
  Qed.
  Lemma view_lt a b c d : is_tetra t a b c d -> a < num_points t /\ b < num_points t /\ c < num_points t /\ d < num_points t.
  Proof.
    intro H. apply (is_tetra_tet t a b c d (g3_inv _ _ G)) in H. destruct H as [i [H|H]];
      destruct (t3_lts _ _ _ (g3_tiling _ _ G) _ _ _ _ _ H) as [? [? [? ?]]]; auto.
  Qed.
  Lemma view_tetra a b d : is_tetra t p a b d -> delaunay_tetra to_point3 site (P p) (P a) (P b) (P d).
  Proof.
    intro H. destruct (proj1 (sv_star _ _ _ _ _ V) a b d H) as [y [z [w [_ [_ [_ [A [B [C DT]]]]]]]]].
    apply at_pos in A. apply at_pos in B. apply at_pos in C.
    apply (delaunay_tetra_proper to_point3 same_to_point site _ _ _ _ _ _ _ _ (same_refl3 _) (same_position3_sym _ _ (proj2 A)) (same_position3_sym _ _ (proj2 B)) (same_position3_sym _ _ (proj2 C)) DT).
  Qed.
  Lemma view_has y z w : site y -> site z -> site w -> delaunay_tetra to_point3 site (P p) y z w -> exists a b d, is_tetra t p a b d /\
    same_position3 (P a) y /\ same_position3 (P b) z /\ same_position3 (P d) w.
  Proof.
    intros Sy Sz Sw DT. destruct (proj2 (sv_star _ _ _ _ _ V) y z w Sy Sz Sw DT) as [a [b [d [H [A [B C]]]]]].
    apply at_pos in A. apply at_pos in B. apply at_pos in C. exists a, b, d. tauto.
  Qed.
  Lemma view_edge q y z w : q < num_points t -> site y -> same_position3 (P q) y -> site z -> site w -> delaunay_tetra to_point3 site (P p) y z w ->
    exists b d, is_tetra t p q b d /\ same_position3 (P b) z /\ same_position3 (P d) w.
  Proof.
    intros L Sy E Sz Sw DT. destruct (view_has y z w Sy Sz Sw DT) as [a [b [d [H [A [B C]]]]]]. exists b, d.
    rewrite (view_apart q a L (proj1 (proj2 (view_lt _ _ _ _ H)))); [auto|]. exact (same_position3_trans _ _ _ E (same_position3_sym _ _ A)).
  Qed.
  Lemma view_nz a b d : is_tetra t p a b d -> ~ (volume6 (shape3 pt p a b d) == 0)%Q.
  Proof. intro H. exact (proj1 (view_tetra a b d H)). Qed.
  Definition site_at (r : Geometry_Model.point3) : Prop := exists v, site v /\ same_point3 (to_point3 v) r.
  Lemma view_free a b d o r : is_tetra t p a b d -> circumscribed3 (shape3 pt p a b d) o -> site_at r -> (dist2_3 o (pt p) <= dist2_3 o r)%Q.
  Proof.
    intros H CO [v [Sv Ev]]. destruct (view_tetra a b d H) as [NZ [o' [CO' E]]].
    rewrite (sphere_dist_eq _ o o' (pt p) NZ CO CO'), (sphere_dist_eq _ o o' r NZ CO CO').
    assert (RO : same_point3 o' o') by reflexivity. rewrite <- (dist_same3 o' o' _ _ RO Ev).
    destruct CO' as [C1 [C2 C3]]. cbn [Geometry_Model.ttp1 Geometry_Model.ttp2 Geometry_Model.ttp3 Geometry_Model.ttp4] in C1, C2, C3.
    destruct (E v Sv) as [K|[K|[K|[K|K]]]]; [now apply Qlt_le_weak| | | |]; rewrite (dist_same3 o' o' _ _ RO (proj1 (same_to_point _ _) K));
      [|rewrite C1|rewrite C2|rewrite C3]; apply Qle_refl.
  Qed.
  Lemma view_strict q i j a b c o : tet t i p q a b -> tet t j p q b c -> circumscribed3 (shape3 pt p q a b) o -> (dist2_3 o (pt p) < dist2_3 o (pt c))%Q.
  Proof.
    intros H K CO. assert (IT : is_tetra t p q a b) by (apply (is_tetra_tet t p q a b (g3_inv _ _ G)); eauto). destruct (view_tetra q a b IT) as [NZ [o' [CO' E]]].
    rewrite (sphere_dist_eq _ o o' (pt p) NZ CO CO'), (sphere_dist_eq _ o o' (pt c) NZ CO CO').
    destruct (t3_lts _ _ _ (g3_tiling _ _ G) _ _ _ _ _ K) as [Lp [Lq [Lb Lc]]]. destruct (t3_lts _ _ _ (g3_tiling _ _ G) _ _ _ _ _ H) as [_ [_ [La _]]].
    destruct (sv_sites _ _ _ _ _ V c Lc) as [y [Sy Ey]]. assert (RO : same_point3 o' o') by reflexivity.
    rewrite (dist_same3 o' o' _ _ RO (proj1 (same_to_point _ _) Ey)).
    destruct (tet_nodup _ _ _ _ _ _ (g3_inv _ _ G) K) as [N1 [N2 [N3 [N4 [N5 N6]]]]].
    assert (Z : forall v, v < num_points t -> same_position3 y (P v) -> c = v).
    { intros v Lv S. apply (view_apart c v Lc Lv). exact (same_position3_trans _ _ _ Ey S). }
    destruct (E y Sy) as [X|[X|[X|[X|X]]]]; [exact X|exfalso..]; apply Z in X; auto.
    subst c. pose proof (view_ccw _ _ _ _ _ H) as X1. pose proof (view_ccw _ _ _ _ _ K) as X2. rewrite o3_last in X2. lra.
  Qed.
  Lemma view_neighbour q : neighbour t p q <-> q <> p /\ exists a b, is_tetra t p q a b.
  Proof. 
    split.
    - intro NB. destruct (proj1 (neighbour_tet _ t p G inner q) NB) as [N [i [a [b T]]]]. split; [auto|]. exists a, b. apply (proj2 (is_tetra_tet t p q a b (g3_inv _ _ G))). exists i. now left.
    - intros [N [a [b T]]]. apply (is_tetra_tet t p q a b (g3_inv _ _ G)) in T. apply (proj2 (neighbour_tet _ t p G inner q)). split; [auto|]. destruct T as [i [T|T]]; [exists i, a, b; exact T|exists i, b, a; apply (tet_even _ _ _ _ _ _ _ _ _ _ T); even].
  Qed.
  Lemma view_near q : neighbour t p q -> site_at (pt q).
  Proof.
    intro NB. apply view_neighbour in NB. destruct NB as [_ [a [b T]]]. destruct (sv_sites _ _ _ _ _ V q (proj1 (proj2 (view_lt _ _ _ _ T)))) as [y [Sy Ey]].
    exists y. split; [exact Sy|]. exact (same_position3_sym _ _ Ey).
  Qed.
  Lemma view_in_whole q y : q < num_points t -> site y -> same_position3 (P q) y -> neighbour t p q <-> neighbours_in_whole site (P p) y.
  Proof.
    intros L Sy E. rewrite view_neighbour. split.
    - intros [N [a [b T]]]. destruct (view_lt _ _ _ _ T) as [_ [_ [La Lb]]]. destruct (sv_sites _ _ _ _ _ V a La) as [z [Sz Ez]]. destruct (sv_sites _ _ _ _ _ V b Lb) as [w [Sw Ew]].
      exists z, w. split; [exact Sz|]. split; [exact Sw|].
      exact (delaunay_tetra_proper to_point3 same_to_point site _ _ _ _ _ _ _ _ (same_refl3 _) E Ez Ew (view_tetra _ _ _ T)).
    - intros [z [w [Sz [Sw DT]]]]. destruct (view_edge q y z w L Sy E Sz Sw DT) as [b [d [T _]]]. split; [|eauto]. intros ->.
      apply (is_tetra_tet t p p b d (g3_inv _ _ G)) in T. destruct T as [i [T|T]]; destruct (tet_nodup _ _ _ _ _ _ (g3_inv _ _ G) T) as [X _]; apply X; reflexivity.
  Qed.
End View.

(** ** A face as seen from two triangulations *)
Definition moved3 (tau a b : vec3) : Prop := (x3 b == x3 a + x3 tau)%Q /\ (y3 b == y3 a + y3 tau)%Q /\ (z3 b == z3 a + z3 tau)%Q.
Definition back3 (tau : vec3) (v : Geometry_Model.point3) : Geometry_Model.point3 :=
  Geometry_Model.P3 (Geometry_Model.x3 v - x3 tau) (Geometry_Model.y3 v - y3 tau) (Geometry_Model.z3 v - z3 tau).
Lemma back_dist tau a b v : moved3 tau a b -> (dist2_3 (back3 tau v) (to_point3 a) == dist2_3 v (to_point3 b))%Q.
Proof. intros [A [B C]]. unfold dist2_3, back3, to_point3. cbn [Geometry_Model.x3 Geometry_Model.y3 Geometry_Model.z3]. rewrite A, B, C. ring. Qed.
Lemma back_circ tau a b c d a' b' c' d' v : moved3 tau a a' -> moved3 tau b b' -> moved3 tau c c' -> moved3 tau d d' ->
  circumscribed3 (Geometry_Model.TT (to_point3 b') (to_point3 a') (to_point3 c') (to_point3 d')) v ->
  circumscribed3 (Geometry_Model.TT (to_point3 a) (to_point3 b) (to_point3 d) (to_point3 c)) (back3 tau v).
Proof.
  intros A B C D [H1 [H2 H3]]. unfold circumscribed3. cbn [Geometry_Model.ttp1 Geometry_Model.ttp2 Geometry_Model.ttp3 Geometry_Model.ttp4] in *.
  rewrite (back_dist _ _ _ v A), (back_dist _ _ _ v B), (back_dist _ _ _ v C), (back_dist _ _ _ v D). rewrite H1, H2, H3. repeat split; reflexivity.
Qed.
Lemma moved_orient tau a b c d a' b' c' d' : moved3 tau a a' -> moved3 tau b b' -> moved3 tau c c' -> moved3 tau d d' ->
  (orient3 (to_point3 b') (to_point3 a') (to_point3 c') (to_point3 d') == - orient3 (to_point3 a) (to_point3 b) (to_point3 c) (to_point3 d))%Q.
Proof.
  intros [A1 [A2 A3]] [B1 [B2 B3]] [C1 [C2 C3]] [D1 [D2 D3]].
  unfold orient3, volume6, triple, to_point3. cbn [Geometry_Model.ttp1 Geometry_Model.ttp2 Geometry_Model.ttp3 Geometry_Model.ttp4 Geometry_Model.x3 Geometry_Model.y3 Geometry_Model.z3].
  rewrite A1, A2, A3, B1, B2, B3, C1, C2, C3, D1, D2, D3. ring.
Qed.
Lemma moved_turn tau a b a' b' v v' : moved3 tau a a' -> moved3 tau b b' ->
  (turn3 (Geometry_Model.sub3 (to_point3 b) (to_point3 a)) (back3 tau (to_point3 a')) (back3 tau v') (back3 tau v) == turn3 (Geometry_Model.sub3 (to_point3 a') (to_point3 b')) (to_point3 a') v v')%Q.
Proof.
  intros [A1 [A2 A3]] [B1 [B2 B3]]. unfold turn3, volume6, triple, to_point3, back3, Geometry_Model.sub3, Geometry_Model.add3.
  cbn [Geometry_Model.ttp1 Geometry_Model.ttp2 Geometry_Model.ttp3 Geometry_Model.ttp4 Geometry_Model.x3 Geometry_Model.y3 Geometry_Model.z3].
  rewrite A1, A2, A3, B1, B2, B3. ring.
Qed.
Lemma moved_proper tau a b a' b' : same_position3 a a' -> same_position3 b b' -> moved3 tau a b -> moved3 tau a' b'.
Proof. intros [A1 [A2 A3]] [B1 [B2 B3]] [C1 [C2 C3]]. unfold moved3. rewrite <- A1, <- A2, <- A3, <- B1, <- B2, <- B3. auto. Qed.
Lemma moved_fun tau a b b' : moved3 tau a b -> moved3 tau a b' -> same_position3 b b'.
Proof. intros [A1 [A2 A3]] [B1 [B2 B3]]. unfold same_position3. rewrite A1, A2, A3, B1, B2, B3. repeat split; reflexivity. Qed.
Lemma moved_inj tau a a' b : moved3 tau a b -> moved3 tau a' b -> same_position3 a a'.
Proof. intros [A1 [A2 A3]] [B1 [B2 B3]]. unfold same_position3. rewrite A1 in B1. rewrite A2 in B2. rewrite A3 in B3. repeat split; lra. Qed.

Section TwoViews.
  Variables (C : Type) (remap1 remap2 : vec3 -> Geometry_Model.point3) (site : vec3 -> Prop).
  Hypothesis similar1 : similar3 remap1.
  Hypothesis similar2 : similar3 remap2.
  Variables (pos1 pos2 : list vec3) (t1 t2 : triangulation) (p1 p2 q1 q2 : nat) (tau : vec3).
  Hypothesis V1 : star_view remap1 site pos1 t1 p1.
  Hypothesis V2 : star_view remap2 site pos2 t2 p2.
  Hypothesis L1 : q1 < num_points t1.
  Hypothesis L2 : q2 < num_points t2.
  Hypothesis M1 : moved3 tau (pos_at pos1 q1) (pos_at pos2 p2).
  Hypothesis M2 : moved3 tau (pos_at pos1 p1) (pos_at pos2 q2).
  Hypothesis FW : forall z w, site z -> site w -> delaunay_tetra to_point3 site (pos_at pos1 p1) (pos_at pos1 q1) z w ->
    exists z' w', site z' /\ site w' /\ moved3 tau z z' /\ moved3 tau w w' /\ delaunay_tetra to_point3 site (pos_at pos2 p2) (pos_at pos2 q2) z' w'.
  Hypothesis BW : forall z' w', site z' -> site w' -> delaunay_tetra to_point3 site (pos_at pos2 p2) (pos_at pos2 q2) z' w' ->
    exists z w, site z /\ site w /\ moved3 tau z z' /\ moved3 tau w w' /\ delaunay_tetra to_point3 site (pos_at pos1 p1) (pos_at pos1 q1) z w.
  Let G1 := sv_good _ _ _ _ _ V1.
  Let G2 := sv_good _ _ _ _ _ V2.
  Notation P1 := (pos_at pos1). Notation P2 := (pos_at pos2).
  Lemma two_fw i a b : tet t1 i p1 q1 a b -> exists j a' b', tet t2 j p2 q2 b' a' /\ moved3 tau (P1 a) (P2 a') /\ moved3 tau (P1 b) (P2 b').
  Proof.
    intro T. assert (IT : is_tetra t1 p1 q1 a b) by (apply (proj2 (is_tetra_tet t1 p1 q1 a b (g3_inv _ _ G1))); exists i; now left).
    destruct (view_lt _ _ _ _ _ V1 _ _ _ _ IT) as [_ [_ [La Lb]]].
    destruct (sv_sites _ _ _ _ _ V1 a La) as [z [Sz Ez]]. destruct (sv_sites _ _ _ _ _ V1 b Lb) as [w [Sw Ew]].
    destruct (FW z w Sz Sw) as [z' [w' [Sz' [Sw' [Mz [Mw DT]]]]]].
    { exact (delaunay_tetra_proper to_point3 same_to_point site _ _ _ _ _ _ _ _ (same_refl3 _) (same_refl3 _) Ez Ew (view_tetra _ _ _ _ _ V1 _ _ _ IT)). }
    destruct (sv_sites _ _ _ _ _ V2 q2 L2) as [y [Sy Ey]].
    destruct (view_edge remap2 site pos2 t2 p2 similar2 V2 q2 y z' w' L2 Sy Ey Sz' Sw') as [a' [b' [IT' [A B]]]].
    { exact (delaunay_tetra_proper to_point3 same_to_point site _ _ _ _ _ _ _ _ (same_refl3 _) Ey (same_refl3 _) (same_refl3 _) DT). }
    assert (MA : moved3 tau (P1 a) (P2 a')) by (exact (moved_proper _ _ _ _ _ (same_position3_sym _ _ Ez) (same_position3_sym _ _ A) Mz)).
    assert (MB : moved3 tau (P1 b) (P2 b')) by (exact (moved_proper _ _ _ _ _ (same_position3_sym _ _ Ew) (same_position3_sym _ _ B) Mw)).
    apply (is_tetra_tet t2 p2 q2 a' b' (g3_inv _ _ G2)) in IT'. destruct IT' as [j [T'|T']].
    - exfalso. pose proof (view_ccw _ _ _ _ _ similar1 V1 _ _ _ _ _ T) as X. pose proof (view_ccw _ _ _ _ _ similar2 V2 _ _ _ _ _ T') as Y.
      unfold pt_at in X, Y. rewrite (moved_orient tau _ _ _ _ _ _ _ _ M2 M1 MA MB) in Y. lra.
    - exists j, a', b'. split; [|auto]. apply (tet_even _ _ _ _ _ _ _ _ _ _ T'); even.
  Qed.
  Lemma two_bw i a' b' : tet t2 i p2 q2 a' b' -> exists j a b, tet t1 j p1 q1 b a /\ moved3 tau (P1 a) (P2 a') /\ moved3 tau (P1 b) (P2 b').
  Proof.
    intro T. assert (IT : is_tetra t2 p2 q2 a' b') by (apply (proj2 (is_tetra_tet t2 p2 q2 a' b' (g3_inv _ _ G2))); exists i; now left).
    destruct (view_lt _ _ _ _ _ V2 _ _ _ _ IT) as [_ [_ [La Lb]]].
    destruct (sv_sites _ _ _ _ _ V2 a' La) as [z [Sz Ez]]. destruct (sv_sites _ _ _ _ _ V2 b' Lb) as [w [Sw Ew]].
    destruct (BW z w Sz Sw) as [z' [w' [Sz' [Sw' [Mz [Mw DT]]]]]].
    { exact (delaunay_tetra_proper to_point3 same_to_point site _ _ _ _ _ _ _ _ (same_refl3 _) (same_refl3 _) Ez Ew (view_tetra _ _ _ _ _ V2 _ _ _ IT)). }
    destruct (sv_sites _ _ _ _ _ V1 q1 L1) as [y [Sy Ey]].
    destruct (view_edge remap1 site pos1 t1 p1 similar1 V1 q1 y z' w' L1 Sy Ey Sz' Sw') as [a [b [IT' [A B]]]].
    { exact (delaunay_tetra_proper to_point3 same_to_point site _ _ _ _ _ _ _ _ (same_refl3 _) Ey (same_refl3 _) (same_refl3 _) DT). }
    assert (MA : moved3 tau (P1 a) (P2 a')) by (exact (moved_proper _ _ _ _ _ (same_position3_sym _ _ A) (same_position3_sym _ _ Ez) Mz)).
    assert (MB : moved3 tau (P1 b) (P2 b')) by (exact (moved_proper _ _ _ _ _ (same_position3_sym _ _ B) (same_position3_sym _ _ Ew) Mw)).
    apply (is_tetra_tet t1 p1 q1 a b (g3_inv _ _ G1)) in IT'. destruct IT' as [j [T'|T']].
    - exfalso. pose proof (view_ccw _ _ _ _ _ similar1 V1 _ _ _ _ _ T') as X. pose proof (view_ccw _ _ _ _ _ similar2 V2 _ _ _ _ _ T) as Y.
      unfold pt_at in X, Y. rewrite (moved_orient tau _ _ _ _ _ _ _ _ M2 M1 MA MB) in Y. lra.
    - exists j, a, b. split; [|auto]. apply (tet_even _ _ _ _ _ _ _ _ _ _ T'); even.
  Qed.
  Lemma two_neighbour : neighbour t1 p1 q1 -> neighbour t2 p2 q2.
  Proof.
    intro NB. apply (proj1 (neighbour_tet _ t1 p1 G1 (sv_inner _ _ _ _ _ V1) q1)) in NB. destruct NB as [N [i [a [b T]]]].
    apply (proj2 (neighbour_tet _ t2 p2 G2 (sv_inner _ _ _ _ _ V2) q2)). destruct (two_fw i a b T) as [j [a' [b' [T' _]]]]. split; [|eauto].
    destruct (tet_nodup _ _ _ _ _ _ (g3_inv _ _ G2) T') as [X _]. exact X.
  Qed.

  Variables (boundary1 boundary2 : C) (outer1 outer2 : nat -> bool) (map1 map2 : nat -> option C) (ptype1 ptype2 : nat -> C) (f g : voronoi_face3 C).
  Hypothesis N1 : neighbour t1 p1 q1.
  Hypothesis R1 : run_face C boundary1 (pt_at pos1) outer1 map1 ptype1 t1 p1 q1 f.
  Hypothesis R2 : run_face C boundary2 (pt_at pos2) outer2 map2 ptype2 t2 p2 q2 g.
  Lemma two_ring : exists r, NoDup r /\ forall b, In b r <-> exists i a, tet t1 i p1 q1 a b.
  Proof.
    destruct R1 as [_ [F _]]. destruct (vf3_polygon _ _ _ _ _ _ F) as [r [[ND _ RT] _]]. exists r. split; [exact ND|].
    assert (NE : p1 <> q1) by (destruct N1; congruence). pose proof (g3_inv _ _ G1) as I1.
    intro b. destruct (Cyclic_Proofs.around_once r) as [A1 A2]. split.
    - intro H. rewrite <- A1 in H. apply in_map_iff in H. destruct H as [[b' a] [E H]]. cbn in E. subst b'.
      assert (IT : is_tetra t1 p1 q1 b a) by (apply RT; now left). apply (is_tetra_tet _ _ _ _ _ I1) in IT. destruct IT as [i [T|T]].
      + exact (edge_pred _ _ _ _ G1 (sv_inner _ _ _ _ _ V1) NE _ _ _ T).
      + exists i, a. apply (tet_even _ _ _ _ _ _ _ _ _ _ T); even.
    - intros [i [a T]]. assert (IT : is_tetra t1 p1 q1 a b) by (apply (proj2 (is_tetra_tet _ _ _ _ _ I1)); exists i; now left).
      apply RT in IT. destruct IT as [H|H].
      + apply (Permutation_in _ A2). change b with (snd (a, b)). now apply in_map.
      + rewrite <- A1. change b with (fst (b, a)). now apply in_map.
  Qed.
  Lemma two_normal : same_point3 (normal3 g) (Geometry_Model.P3 (- Geometry_Model.x3 (normal3 f)) (- Geometry_Model.y3 (normal3 f)) (- Geometry_Model.z3 (normal3 f))).
  Proof.
    destruct R1 as [_ [F _]]. destruct R2 as [_ [F' _]]. rewrite (vf3_normal _ _ _ _ _ _ F), (vf3_normal _ _ _ _ _ _ F').
    destruct M1 as [A1 [A2 A3]]. destruct M2 as [B1 [B2 B3]]. unfold same_point3, Geometry_Model.sub3, pt_at, to_point3. cbn [Geometry_Model.x3 Geometry_Model.y3 Geometry_Model.z3].
    rewrite A1, A2, A3, B1, B2, B3. repeat split; ring.
  Qed.
  Lemma two_length : length3 (normal3 g) = length3 (normal3 f).
  Proof.
    destruct two_normal as [A [B D]]. cbn [Geometry_Model.x3 Geometry_Model.y3 Geometry_Model.z3] in *. unfold length3. f_equal. apply Qreals.Qeq_eqR. unfold Geometry_Model.dot3. rewrite A, B, D. ring.
  Qed.
  Theorem two_area : face_area f = face_area g.
  Proof.
    destruct two_ring as [r [ND IR]]. assert (NE1 : p1 <> q1) by (destruct N1; congruence).
    pose proof two_neighbour as TN. specialize (TN N1). assert (NE2 : p2 <> q2) by (destruct TN; congruence).
    set (x := back3 tau (pt_at pos2 q2)).
    destruct (finite_choice 0%Q (fun b h => In b r -> turns_by (pt_at pos1) t1 p1 q1 x b h) (num_points t1)) as [H HH].
    { intros b _. destruct (in_dec Nat.eq_dec b r) as [Hb|Hb]; [|exists 0%Q; contradiction]. apply IR in Hb. destruct Hb as [i [a T]].
      destruct (turns_by_ex _ (pt_at pos1) t1 p1 G1 (sv_inner _ _ _ _ _ V1) (view_ccw _ _ _ _ _ similar1 V1) q1 x i a b NE1 T) as [h TH]. exists h. auto. }
    assert (LT1 : forall b, In b r -> b < num_points t1).
    { intros b Hb. apply IR in Hb. destruct Hb as [i [a T]]. now destruct (t3_lts _ _ _ (g3_tiling _ _ G1) _ _ _ _ _ T) as [_ [_ [_ ?]]]. }
    destruct (finite_choice 0 (fun b b' => In b r -> moved3 tau (P1 b) (P2 b') /\ exists i a, tet t2 i p2 q2 a b') (num_points t1)) as [phi HP].
    { intros b _. destruct (in_dec Nat.eq_dec b r) as [Hb|Hb]; [|exists 0; contradiction]. apply IR in Hb. destruct Hb as [i [a T]].
      destruct (two_fw i a b T) as [j [a' [b' [T' [MA MB]]]]]. exists b'. intros _. split; [exact MB|].
      exact (edge_pred _ _ _ _ G2 (sv_inner _ _ _ _ _ V2) NE2 _ _ _ T'). }
    destruct (finite_choice 0 (fun b' b => (exists i a, tet t2 i p2 q2 a b') -> moved3 tau (P1 b) (P2 b') /\ In b r) (num_points t2)) as [psi HS].
    { intros b' _. destruct (in_dec Nat.eq_dec b' (map phi r)) as [Hb|Hb].
      - apply in_map_iff in Hb. destruct Hb as [b [<- Hb]]. exists b. intros _. split; [|exact Hb]. now apply HP; auto.
      - exists 0. intros [i [a' T']]. exfalso. destruct (two_bw i a' b' T') as [j [a [b [T [MA MB]]]]].
        assert (Hr : In b r) by (apply IR; exact (edge_pred _ _ _ _ G1 (sv_inner _ _ _ _ _ V1) NE1 _ _ _ T)).
        apply Hb. destruct (HP b (LT1 b Hr) Hr) as [MP [k [c TP]]]. replace b' with (phi b); [now apply in_map|].
        apply (view_apart remap2 site pos2 t2 p2 similar2 V2); [now destruct (t3_lts _ _ _ (g3_tiling _ _ G2) _ _ _ _ _ TP) as [_ [_ [_ ?]]]|
          now destruct (t3_lts _ _ _ (g3_tiling _ _ G2) _ _ _ _ _ T') as [_ [_ [_ ?]]]|]. exact (moved_fun _ _ _ _ MP MB). }
    assert (LT2 : forall i a b, tet t2 i p2 q2 a b -> b < num_points t2) by (intros i a b T; now destruct (t3_lts _ _ _ (g3_tiling _ _ G2) _ _ _ _ _ T) as [_ [_ [_ ?]]]).
    assert (PS : forall b, In b r -> psi (phi b) = b).
    { intros b Hb. destruct (HP b (LT1 b Hb) Hb) as [MP EX]. pose proof EX as [i [a T]]. destruct (HS (phi b) (LT2 _ _ _ T) EX) as [MS IS].
      apply (view_apart remap1 site pos1 t1 p1 similar1 V1); [now apply LT1|now apply LT1|]. exact (moved_inj _ _ _ _ MS MP). }
    pose proof (face_sum C boundary1 _ (pt_at pos1) outer1 map1 ptype1 t1 p1 G1 (sv_inner _ _ _ _ _ V1) (view_ccw _ _ _ _ _ similar1 V1) (site_at site)
      (view_free _ _ _ _ _ V1) (view_strict _ _ _ _ _ similar1 V1) (view_near _ _ _ _ _ V1) q1 f x r H N1 R1 ND IR (fun b Hb => HH b (LT1 b Hb) Hb)) as S1.
    assert (ND2 : NoDup (map phi r)).
    { clear - ND PS. induction r as [|b l IH]; [constructor|]. apply NoDup_cons_iff in ND. destruct ND as [N0 ND]. cbn. constructor.
      - intro X. apply in_map_iff in X. destruct X as [b' [E X]]. apply N0. rewrite <- (PS b) by (now left). rewrite <- E, (PS b') by (now right). exact X.
      - apply IH; [exact ND|]. intros; apply PS; now right. }
    assert (IR2 : forall b', In b' (map phi r) <-> exists i a, tet t2 i p2 q2 a b').
    { intro b'. split.
      - intro X. apply in_map_iff in X. destruct X as [b [<- X]]. now apply HP; auto.
      - intro EX. pose proof EX as [i [a T]]. destruct (HS b' (LT2 _ _ _ T) EX) as [MS IS]. replace b' with (phi (psi b')); [now apply in_map|].
        destruct (HP _ (LT1 _ IS) IS) as [MP [k [c TP]]]. apply (view_apart remap2 site pos2 t2 p2 similar2 V2); [exact (LT2 _ _ _ TP)|exact (LT2 _ _ _ T)|].
        exact (moved_fun _ _ _ _ MP MS). }
    pose proof (face_sum C boundary2 _ (pt_at pos2) outer2 map2 ptype2 t2 p2 G2 (sv_inner _ _ _ _ _ V2) (view_ccw _ _ _ _ _ similar2 V2) (site_at site)
      (view_free _ _ _ _ _ V2) (view_strict _ _ _ _ _ similar2 V2) (view_near _ _ _ _ _ V2) q2 g (pt_at pos2 q2) (map phi r) (fun b' => H (psi b')) TN R2 ND2 IR2) as S2.
    assert (E : map (fun b' => H (psi b')) (map phi r) = map H r).
    { rewrite map_map. apply map_ext_in. intros b Hb. now rewrite (PS b Hb). }
    match type of S2 with ?A -> _ => assert (TB : A); [clear S1 S2 E|specialize (S2 TB)] end; cycle 1.
    - rewrite E, two_length in S2. rewrite <- S1 in S2. assert (LP : (0 < length3 (normal3 f))%R).
      { destruct R1 as [_ [F _]]. rewrite (vf3_normal _ _ _ _ _ _ F). apply length3_pos. exact (normal_pos _ (pt_at pos1) t1 p1 G1 (sv_inner _ _ _ _ _ V1) (view_ccw _ _ _ _ _ similar1 V1) q1 N1). }
      apply Rmult_eq_reg_r with (length3 (normal3 f)); [symmetry; exact S2|]. apply Rgt_not_eq. exact LP.
    - intros b' Hb'. apply IR2 in Hb'. pose proof Hb' as [i0 [a0 T0]]. destruct (HS b' (LT2 _ _ _ T0) Hb') as [MS IS].
      intros i j a' c' v v' T T' CV CV'.
      destruct (two_bw _ _ _ T) as [k [a [b1 [K1 [MA MB]]]]]. destruct (two_bw _ _ _ T') as [k' [b2 [c [K2 [MB2 MC]]]]].
      assert (E1 : b1 = psi b').
      { apply (view_apart remap1 site pos1 t1 p1 similar1 V1); [now destruct (t3_lts _ _ _ (g3_tiling _ _ G1) _ _ _ _ _ K1) as [_ [_ [? _]]]|now apply LT1|]. exact (moved_inj _ _ _ _ MB MS). }
      assert (E2 : b2 = psi b').
      { apply (view_apart remap1 site pos1 t1 p1 similar1 V1); [now destruct (t3_lts _ _ _ (g3_tiling _ _ G1) _ _ _ _ _ K2) as [_ [_ [_ ?]]]|now apply LT1|]. exact (moved_inj _ _ _ _ MB2 MS). }
      subst b1 b2. pose proof (HH (psi b') (LT1 _ IS) IS) as TH.
      rewrite (TH k' k c a (back3 tau v') (back3 tau v) K2 K1).
      + exact (moved_turn tau _ _ _ _ v v' M2 M1).
      + exact (back_circ tau _ _ _ _ _ _ _ _ v' M2 M1 MB2 MC CV').
      + exact (back_circ tau _ _ _ _ _ _ _ _ v M2 M1 MA MB CV).
  Qed.
End TwoViews.

(** ** The cells of a rank *)
Lemma Forall2_choose {A B} (R : A -> B -> Prop) l : (forall a, In a l -> exists b, R a b) -> exists m, Forall2 R l m.
Proof.
  induction l as [|a l IH]; intro H; [exists []; constructor|]. destruct (H a (or_introl eq_refl)) as [b Hb]. destruct IH as [m Hm]; [intros; apply H; now right|].
  exists (b :: m). now constructor.
Qed.
Lemma Forall2_weak {A B} (R Q : A -> B -> Prop) l m : (forall a b, R a b -> Q a b) -> Forall2 R l m -> Forall2 Q l m.
Proof. intro H. induction 1; constructor; auto. Qed.
Lemma Forall2_meet {A B C} (R : A -> B -> Prop) (Q : A -> C -> Prop) l m k : Forall2 R l m -> Forall2 Q l k -> Forall2 (fun b c => exists a, In a l /\ R a b /\ Q a c) m k.
Proof.
  intro H. revert k. induction H as [|a b l m H F IH]; intros k K; inversion K as [|? c ? k' X Y]; subst; constructor; [exists a; split; [now left|auto]|].
  apply (Forall2_weak (fun b c => exists a, In a l /\ R a b /\ Q a c)); [|now apply IH]. intros u v [a0 [I0 Z]]. exists a0. split; [now right|exact Z].
Qed.
Lemma Forall2_map_r {A B C} (R : A -> C -> Prop) (h : B -> C) l m : Forall2 (fun a b => R a (h b)) l m -> Forall2 R l (map h m).
Proof. induction 1; constructor; auto. Qed.

Section RankWhole.
  Variables (ranks : nat) (cfg : config) (build_fuel search_fuel : nat) (pop : nat -> list nat -> nat).
  Variables (box : extent3) (particles order : nat -> list (nat * vec3)).
  Variables (circumcircle : list vec3 -> vec3 * Q) (characteristic_length : Q) (chunk_size : nat).
  Hypothesis D : distributed3 ranks box particles.
  Hypothesis F : max_depth cfg < build_fuel.
  Variables (remap : vec3 -> Geometry_Model.point3) (outer : list vec3).
  Hypothesis similar : similar3 remap.
  Hypothesis corners : starts_with3 remap outer.
  Hypothesis spheres : covers_spheres3 to_point3 circumcircle.
  Variables (fuel : nat) (w w' : list rank_state).
  Hypothesis start : starts_in_order3 ranks pop particles order remap outer w.
  Hypothesis ended : run3 ranks cfg build_fuel search_fuel pop box particles remap circumcircle characteristic_length chunk_size fuel w = Some (Done w').
  Variable hash_set : list nat -> list nat.
  Hypothesis hash : iterates_set hash_set.
  Variables (r : nat) (s : rank_state).
  Hypothesis here : nth_error w' r = Some s.
  Notation image := (image_of vec3 wrap3 (images3 box) particles).
  Notation site := (site3 box particles outer).
  Notation local := (order r).
  Notation n := (length local).
  Notation h := (length (haloes s)).
  Notation P := (pos_at (points s)).
  Notation type_at := (type_at order r s).
  Notation rank_is := (rank_is ranks cfg build_fuel search_fuel pop box particles order circumcircle characteristic_length chunk_size F remap outer corners fuel w w' start ended r s here).
  Notation layout_is := (layout_is ranks cfg build_fuel search_fuel pop box particles order circumcircle characteristic_length chunk_size F remap outer corners fuel w w' start ended r s here).
  Notation count_is := (count_is ranks cfg build_fuel search_fuel pop box particles order circumcircle characteristic_length chunk_size F remap outer corners fuel w w' start ended r s here).
  Notation point_image := (point_image ranks cfg build_fuel search_fuel pop box particles order circumcircle characteristic_length chunk_size D F remap outer corners fuel w w' start ended r s here).

  Lemma nth_pos p : p < num_points (tri_of s) -> nth_error (points s) p = Some (P p).
  Proof.
    intro L. destruct (nth_error (points s) p) as [x|] eqn:E; [unfold pos_at; now rewrite (nth_error_nth _ _ _ E)|].
    apply nth_error_None in E. rewrite (rd3_points _ _ _ _ _ rank_is) in E. lia.
  Qed.
  (** What the points of the rank are in the whole. *)
  Lemma point_site q : q < num_points (tri_of s) -> exists y, site y /\ same_position3 (P q) y /\
    (In y outer /\ type_at q = Boundary wrap3 \/ 4 <= q /\ exists rank id wr, image rank id wr y /\ type_at q = image_type3 r rank id wr).
  Proof.
    intro L. destruct (Nat.lt_ge_cases q 4) as [Q|Q].
    - exists (P q). assert (I : In (P q) outer).
      { destruct (ly_points _ _ _ _ layout_is) as [hs E]. unfold pos_at. pose proof (proj1 corners). rewrite E, app_nth1 by lia. apply nth_In. lia. }
      split; [now left|]. split; [apply same_refl3|]. left. split; [exact I|]. unfold VoronoiGrid3_Proofs.type_at. destruct (Nat.ltb_spec q 4); [reflexivity|lia].
    - destruct (point_image q (conj Q L)) as [rk [id [wr [pos [pos' [T [IM [E [S _]]]]]]]]]. exists pos'. rewrite (nth_pos q L) in E. injection E as <-.
      split; [right; eauto|]. split; [exact S|]. right. split; [exact Q|]. eauto.
  Qed.
  Lemma view_here p : 4 <= p < 4 + n -> star_view remap site (points s) (tri_of s) p.
  Proof.
    intro Hp. assert (LP : 4 <= p < num_points (tri_of s)) by (rewrite count_is; lia). constructor.
    - exact (rd3_good _ _ _ _ _ rank_is).
    - symmetry. exact (rd3_points _ _ _ _ _ rank_is).
    - exact LP.
    - assert (K : nth_error (kinds s) p = Some Inner).
      { destruct (ly_kinds _ _ _ _ layout_is) as [ks [-> _]]. pose proof (proj1 corners) as FO. rewrite nth_error_app2 by (rewrite map_length; lia). rewrite map_length.
        rewrite nth_error_app1 by (rewrite map_length; lia). destruct (nth_error local (p - length outer)) as [y|] eqn:E; [|apply nth_error_None in E; lia].
        now rewrite (map_nth_error _ _ _ E). }
      pose proof (star3 ranks cfg build_fuel search_fuel pop box particles remap circumcircle characteristic_length chunk_size outer D F (proj1 corners) (proj2 corners)
        (similar_same3 remap similar) (similar_spheres3 remap similar circumcircle spheres) fuel w w' r s (order_starts3 _ _ _ _ _ _ _ start) ended here p K (P p) (nth_pos p (proj2 LP))) as [A B].
      split.
      + intros b c d T. destruct (A b c d T) as [y [z [v [Sy [Sz [Sv [Y [Z [V DT]]]]]]]]]. exists y, z, v. repeat (split; [assumption|]).
        exact (proj1 (similar_delaunay3 remap similar site _ _ _ _) DT).
      + intros y z v Sy Sz Sv DT. exact (B y z v Sy Sz Sv (proj2 (similar_delaunay3 remap similar site _ _ _ _) DT)).
    - intros v Lv. destruct (point_site v Lv) as [y [Sy [Ey _]]]. eauto.
  Qed.

  Variable periodic : bool.
  Lemma shown_map rank id wr : map_ptype3 (image_type3 r rank id wr) periodic = shown_type3 periodic r rank id wr.
  Proof. unfold map_ptype3, image_type3, shown_type3, image_type3. destruct periodic, (is_periodic3 wr), (rank =? r); reflexivity. Qed.
  Notation cell_is := (cell_is order hash_set r s).
  Notation grid_of := (grid_of periodic).
  Notation own_run p Hp := (new_cell_run3 ptype3 (Boundary wrap3) _ (original_point3 s) (is_outer3 s) (cell_of_point3 (point_map3 local s)) hash_set type_at (tri_of s) p
      (rd3_good _ _ _ _ _ rank_is) Hp
      (outer_is ranks cfg build_fuel search_fuel pop box particles order circumcircle characteristic_length chunk_size F remap outer corners fuel w w' start ended r s here)
      (types_are ranks cfg build_fuel search_fuel pop box particles order circumcircle characteristic_length chunk_size F remap outer corners fuel w w' start ended r s here) hash
      (ccw_is ranks cfg build_fuel search_fuel pop box particles order circumcircle characteristic_length chunk_size F remap outer similar corners fuel w w' start ended r s here)).
  Notation run_here p := (run_face ptype3 (Boundary wrap3) (pt_at (points s)) (is_outer3 s) (cell_of_point3 (point_map3 local s)) type_at (tri_of s) p).
  Lemma cell_run p c : 4 <= p < num_points (tri_of s) -> cell_is p c -> exists qs, NoDup qs /\ (forall q, In q qs <-> neighbour (tri_of s) p q) /\ Forall2 (run_here p) qs (cell_faces3 c).
  Proof.
    intros Hp [E _]. destruct (own_run p Hp) as [c' [qs [E' [_ [_ [_ [_ [_ [N1 [N2 F2]]]]]]]]]]. rewrite E in E'. injection E' as <-. exists qs. auto.
  Qed.
  Lemma neighbour_in p q : neighbour (tri_of s) p q -> q < num_points (tri_of s).
  Proof. intros [_ [i [t [H [_ Hq]]]]]. exact (proj2 (proj2 (iv_corners _ _ _ (g3_inv _ _ (rd3_good _ _ _ _ _ rank_is)) _ _ H)) q Hq). Qed.
  Definition shown_face (f : voronoi_face3 ptype3) : voronoi_face3 ptype3 := VFace3 (map_ptype3 (connection3 f) periodic) (normal3 f) (polygon f).
  Lemma shown_proper f : proper_face f -> proper_face (shown_face f).
  Proof. intros [A B C]. constructor; [exact A|exact B|exact C]. Qed.

  (** The face of a local cell towards a point of the rank. *)
  Lemma face_here p q f y : 4 <= p < 4 + n -> neighbour (tri_of s) p q -> run_here p q f -> site y -> same_position3 (P q) y ->
    face_between site (P p) y (shown_face f).
  Proof.
    intros Hp NB RF Sy Ey. pose proof (view_here p Hp) as V. pose proof (neighbour_in p q NB) as Lq. pose proof RF as [_ [FF _]].
    destruct (vf3_polygon _ _ _ _ _ _ FF) as [ring [[RN RL RT] PG]]. constructor.
    - cbn [shown_face normal3]. rewrite (vf3_normal _ _ _ _ _ _ FF). unfold pt_at, to_point3, Geometry_Model.sub3. cbn [Geometry_Model.x3 Geometry_Model.y3 Geometry_Model.z3].
      destruct Ey as [-> [-> ->]]. repeat split; reflexivity.
    - cbn [shown_face polygon]. intros v Hv. destruct (Forall2_in_r _ _ _ _ PG Hv) as [[a b] [Hab CV]]. cbn [fst snd] in CV.
      assert (IT : is_tetra (tri_of s) p q a b) by (apply RT; now left). destruct (view_lt _ _ _ _ _ V _ _ _ _ IT) as [_ [_ [La Lb]]].
      destruct (sv_sites _ _ _ _ _ V a La) as [z [Sz Ez]]. destruct (sv_sites _ _ _ _ _ V b Lb) as [u [Su Eu]]. exists z, u.
      split; [exact Sz|]. split; [exact Su|]. split.
      + exact (delaunay_tetra_proper to_point3 same_to_point site _ _ _ _ _ _ _ _ (same_refl3 _) Ey Ez Eu (view_tetra _ _ _ _ _ V _ _ _ IT)).
      + apply (circ_same3 _ _ _ _ _ _ _ _ v (proj1 (same_to_point _ _) (same_refl3 (P p))) (proj1 (same_to_point _ _) Ey) (proj1 (same_to_point _ _) Ez) (proj1 (same_to_point _ _) Eu)).
        exact CV.
    - cbn [shown_face polygon]. intros z u Sz Su DT. destruct (view_edge _ _ _ _ _ similar V q y z u Lq Sy Ey Sz Su DT) as [a [b [IT [Ea Eb]]]].
      apply RT in IT. destruct IT as [Hab|Hab]; destruct (Forall2_in_l _ _ _ _ PG Hab) as [v [Hv CV]]; exists v; (split; [exact Hv|]); cbn [fst snd] in CV.
      + exact (circ_same3 _ _ _ _ _ _ _ _ v (proj1 (same_to_point _ _) (same_refl3 (P p))) (proj1 (same_to_point _ _) Ey) (proj1 (same_to_point _ _) Ea) (proj1 (same_to_point _ _) Eb) CV).
      + apply circ_swap3. exact (circ_same3 _ _ _ _ _ _ _ _ v (proj1 (same_to_point _ _) (same_refl3 (P p))) (proj1 (same_to_point _ _) Ey) (proj1 (same_to_point _ _) Eb) (proj1 (same_to_point _ _) Ea) CV).
    - apply shown_proper.
      exact (face_proper ptype3 (Boundary wrap3) _ (pt_at (points s)) (is_outer3 s) (cell_of_point3 (point_map3 local s)) type_at (tri_of s) p (sv_good _ _ _ _ _ V) (sv_inner _ _ _ _ _ V)
        (view_ccw _ _ _ _ _ similar V) (site_at site) (view_free _ _ _ _ _ V) (view_strict _ _ _ _ _ similar V) (view_near _ _ _ _ _ V) q f NB RF).
  Qed.
  Lemma scaled_here : exists f k, (0 < k)%Q /\ (forall a b c d, (orient3 (f a) (f b) (f c) (f d) == k * orient3 a b c d)%Q) /\ forall v, positions3 remap (points s) v = f (pt_at (points s) v).
  Proof. destruct (similar_orient3 remap similar) as [f [k [KP [E FO]]]]. exists f, k. split; [exact KP|]. split; [exact FO|]. intro v. apply E. Qed.
  Theorem cell_whole p c : 4 <= p < 4 + n -> cell_is p c -> whole_cell3 box particles outer periodic r (P p) (grid_of c).
  Proof.
    intros Hp C. pose proof (view_here p Hp) as V. assert (LP : 4 <= p < num_points (tri_of s)) by (rewrite count_is; lia). constructor.
    - cbn zeta. destruct (cell_run p c LP C) as [qs [ND [IN RF]]].
      destruct (Forall2_choose (fun q y => site y /\ same_position3 (P q) y /\ refers_to3 box particles outer periodic r y (map_ptype3 (type_at q) periodic)) qs) as [ys Y].
      { intros q Hq. apply IN in Hq. destruct (point_site q (neighbour_in p q Hq)) as [y [Sy [Ey T]]]. exists y. split; [exact Sy|]. split; [exact Ey|].
        destruct T as [[I T]|[_ [rk [id [wr [I T]]]]]].
        - left. split; [exact I|]. rewrite T. now destruct periodic.
        - right. exists rk, id, wr. split; [exact I|]. rewrite T. apply shown_map. }
      exists ys. split; [|split].
      + assert (LT : forall q, In q qs -> q < num_points (tri_of s)) by (intros q Hq; apply IN in Hq; exact (neighbour_in p q Hq)).
        clear - ND LT Y V similar. induction Y as [|q y qs ys [_ [Ey _]] Y IH]; [constructor|]. apply NoDup_cons_iff in ND. destruct ND as [N1 N2]. constructor; [|apply IH; [exact N2|intros; apply LT; now right]].
        rewrite Forall_forall. intros y' Hy' S. destruct (Forall2_in_r _ _ _ _ Y Hy') as [q' [Hq' [_ [Ey' _]]]]. apply N1.
        rewrite (view_apart _ _ _ _ _ similar V q q' (LT q (or_introl eq_refl)) (LT q' (or_intror Hq'))); [exact Hq'|].
        exact (same_position3_trans _ _ _ Ey (same_position3_trans _ _ _ S (same_position3_sym _ _ Ey'))).
      + intros y Sy. split.
        * intro NW. pose proof NW as [z [u [Sz [Su DT]]]]. destruct (view_has _ _ _ _ _ V y z u Sy Sz Su DT) as [q [a [b [IT [Ey [Ea Eb]]]]]].
          assert (Lq : q < num_points (tri_of s)) by (exact (proj1 (proj2 (view_lt _ _ _ _ _ V _ _ _ _ IT)))).
          assert (Hq : In q qs) by (apply IN; exact (proj2 (view_in_whole _ _ _ _ _ similar V q y Lq Sy Ey) NW)).
          destruct (Forall2_in_l _ _ _ _ Y Hq) as [y' [Hy' [_ [Ey' _]]]]. exists y'. split; [exact Hy'|]. exact (same_position3_trans _ _ _ (same_position3_sym _ _ Ey') Ey).
        * intros [y' [Hy' S]]. destruct (Forall2_in_r _ _ _ _ Y Hy') as [q [Hq [_ [Ey' _]]]]. apply IN in Hq.
          exact (proj1 (view_in_whole _ _ _ _ _ similar V q y (neighbour_in p q Hq) Sy (same_position3_trans _ _ _ Ey' S)) Hq).
      + cbn [neighbours3 VoronoiGrid3_Proofs.grid_of]. apply Forall2_map_r. apply (Forall2_weak (fun y f => exists q, In q qs /\ (site y /\ same_position3 (P q) y /\ refers_to3 box particles outer periodic r y (map_ptype3 (type_at q) periodic)) /\ run_here p q f));
          [|exact (Forall2_meet _ _ _ _ _ Y RF)].
        intros y f [q [Hq [[Sy [Ey RT]] R]]]. apply IN in Hq. split; [exact Sy|]. split; [|exact (face_here p q f y Hp Hq R Sy Ey)].
        destruct R as [_ [FF _]]. cbn [connection3]. rewrite (vf3_type _ _ _ _ _ _ FF). exact RT.
    - destruct scaled_here as [g [k [KP [FO FP]]]].
      destruct (volume_ok3 ptype3 (Boundary wrap3) _ (pt_at (points s)) (is_outer3 s) (cell_of_point3 (point_map3 local s)) hash_set type_at (tri_of s) p (sv_good _ _ _ _ _ V) (sv_inner _ _ _ _ _ V)
        (outer_is ranks cfg build_fuel search_fuel pop box particles order circumcircle characteristic_length chunk_size F remap outer corners fuel w w' start ended r s here)
        (types_are ranks cfg build_fuel search_fuel pop box particles order circumcircle characteristic_length chunk_size F remap outer corners fuel w w' start ended r s here) hash
        (view_ccw _ _ _ _ _ similar V) g k KP FO (fun v _ => FP v) (site_at site) (view_free _ _ _ _ _ V) (view_strict _ _ _ _ _ similar V) (view_near _ _ _ _ _ V) c (proj1 C)) as [[_ VF VP] _].
      cbn [volume3 neighbours3 VoronoiGrid3_Proofs.grid_of]. split; [|exact VP]. rewrite VF, map_map. reflexivity.
  Qed.
  (** Nearest points, among all images. *)
  Theorem cell_nearest p c x : 4 <= p < 4 + n -> cell_is p c ->
    cell_contains3 c x = true <-> forall y, site y -> (0 < dist2_3 (to_point3 y) (to_point3 (P p)))%Q -> (dist2_3 x (to_point3 (P p)) < dist2_3 x (to_point3 y))%Q.
  Proof.
    intros Hp C. pose proof (view_here p Hp) as V. destruct scaled_here as [g [k [KP [FO FP]]]].
    rewrite (contains_ok3 ptype3 (Boundary wrap3) _ (pt_at (points s)) (is_outer3 s) (cell_of_point3 (point_map3 local s)) hash_set type_at (tri_of s) p (sv_good _ _ _ _ _ V) (sv_inner _ _ _ _ _ V)
        (outer_is ranks cfg build_fuel search_fuel pop box particles order circumcircle characteristic_length chunk_size F remap outer corners fuel w w' start ended r s here)
        (types_are ranks cfg build_fuel search_fuel pop box particles order circumcircle characteristic_length chunk_size F remap outer corners fuel w w' start ended r s here) hash
        (view_ccw _ _ _ _ _ similar V) g k KP FO (fun v _ => FP v) (site_at site) (view_free _ _ _ _ _ V) (view_near _ _ _ _ _ V) c (proj1 C) x).
    assert (RX : same_point3 x x) by reflexivity. assert (RP : same_point3 (to_point3 (P p)) (to_point3 (P p))) by reflexivity. split.
    - intros A y Sy PO. apply A; [|exact PO]. exists y. split; [exact Sy|reflexivity].
    - intros A y' [y [Sy Ey]] PO. rewrite <- (dist_same3 x x _ _ RX Ey). apply A; [exact Sy|]. rewrite (dist_same3 _ _ _ _ Ey RP). exact PO.
  Qed.

  (** ** The grid of the rank *)
  Theorem grid_whole : exists g, construct_grid3 hash_set local s periodic = Some g /\ map fst (local_cells3 g) = map fst local /\
    (forall id c, In (id, c) (local_cells3 g) -> exists pos, In (id, pos) (particles r) /\ whole_cell3 box particles outer periodic r pos c) /\
    (forall q x, In (q, x) (halo_ids3 g) <-> exists e f, In e (local_cells3 g) /\ In f (neighbours3 (snd e)) /\
       (connection3 f = Remote wrap3 x q \/ exists wr, connection3 f = RemotePeriodic wrap3 x q wr)).
  Proof.
    destruct (construct_grid_ok ranks cfg build_fuel search_fuel pop box particles order circumcircle characteristic_length chunk_size D F remap outer similar corners fuel w w' start ended hash_set hash r s here periodic)
      as [g [E [LC HI]]]. exists g. split; [exact E|].
    assert (LE : forall e, In e (local_cells3 g) -> exists p x c, 4 <= p < 4 + n /\ nth_error local (p - 4) = Some x /\ fst e = fst x /\ P p = snd x /\ cell_is p c /\ snd e = grid_of c).
    { intros e He. destruct (Forall2_in_r _ _ _ _ LC He) as [[x p] [Hx [L1 [L2 [L3 [c [L4 L5]]]]]]]. cbn [fst snd] in *.
      apply VoronoiGrid_Proofs.combine_seq in Hx. destruct Hx as [K1 K2]. assert (p - 4 < n) by (apply nth_error_Some; congruence).
      exists p, x, c. split; [lia|]. split; [exact K2|]. split; [exact L1|]. split; [|auto].
      unfold pos_at. exact (nth_error_nth _ _ _ L2). }
    split; [|split].
    - assert (G : forall l e, Forall2 (local_entry order hash_set r s periodic) l e -> map fst e = map (fun xp => fst (fst xp)) l).
      { induction 1 as [|a b l e [H1 _] Hl IH]; [reflexivity|]. cbn. now rewrite IH, H1. }
      rewrite (G _ _ LC). rewrite <- map_map. rewrite VoronoiGrid_Proofs.combine_fst by (now rewrite seq_length). reflexivity.
    - intros id c Hc. destruct (LE _ Hc) as [p [[id' pos] [c0 [Hp [Hx [E1 [E2 [E3 E4]]]]]]]]. cbn [fst snd] in *. subst id' c. exists pos. split.
      + destruct start as [_ [PM _]]. apply (Permutation_in _ (PM r)). exact (nth_error_In _ _ Hx).
      + rewrite <- E2. now apply cell_whole.
    - intros q x. rewrite (HI q x). split.
      + intros [NQ [p [c [wr [C [Hp [T [PE EX]]]]]]]]. apply existsb_exists in EX. destruct EX as [f [Hf IL]]. cbn [neighbours3 VoronoiGrid3_Proofs.grid_of] in Hf.
        apply in_map_iff in Hf. destruct Hf as [f0 [<- Hf]]. cbn [connection3] in IL. assert (LP : 4 <= p < num_points (tri_of s)) by (rewrite count_is; lia).
        destruct (cell_run p c LP C) as [qs [_ [IN RF]]]. destruct (Forall2_in_r _ _ _ _ RF Hf) as [v [Hv [_ [FF _]]]]. apply IN in Hv.
        rewrite (vf3_type _ _ _ _ _ _ FF) in IL. pose proof (neighbour_in _ _ Hv) as Lv.
        assert (TV : 4 <= v < 4 + n).
        { apply (type_local ranks cfg build_fuel search_fuel pop box particles order circumcircle characteristic_length chunk_size D F remap outer corners fuel w w' start ended r s here). split; [exact Lv|].
          unfold map_ptype3, is_local3 in IL. destruct periodic; destruct (type_at v); try discriminate; eauto. }
        destruct (nth_error local (v - 4)) as [y|] eqn:Ey; [|apply nth_error_None in Ey; lia].
        assert (IC : In (y, v) (combine local (seq 4 n))).
        { apply VoronoiGrid_Proofs.combine_seq. split; [lia|exact Ey]. }
        destruct (Forall2_in_l _ _ _ _ LC IC) as [e [He [_ [_ [_ [c' [C' Ec]]]]]]]. cbn [fst snd] in *.
        destruct (cell_run v c' (conj (proj1 TV) Lv) C') as [qs' [_ [IN' RF']]]. apply neighbour_sym in Hv. apply IN' in Hv.
        destruct (Forall2_in_l _ _ _ _ RF' Hv) as [f' [Hf' [_ [FF' _]]]].
        exists e, (shown_face f'). split; [exact He|]. split; [rewrite Ec; cbn [neighbours3 VoronoiGrid3_Proofs.grid_of]; exact (in_map shown_face _ _ Hf')|].
        cbn [shown_face connection3]. rewrite (vf3_type _ _ _ _ _ _ FF'), T, shown_map. unfold shown_type3, image_type3. destruct (is_periodic3 wr); cbn.
        * rewrite (PE eq_refl). cbn. destruct (Nat.eqb_spec q r); [contradiction|]. right. eauto.
        * destruct (Nat.eqb_spec q r); [contradiction|]. now left.
      + intros [e [f [He [Hf CO]]]]. destruct (LE e He) as [p [y [c [Hp [Hx [_ [_ [C Ec]]]]]]]]. rewrite Ec in Hf. cbn [neighbours3 VoronoiGrid3_Proofs.grid_of] in Hf.
        apply in_map_iff in Hf. destruct Hf as [f0 [<- Hf]]. cbn [connection3] in CO. assert (LP : 4 <= p < num_points (tri_of s)) by (rewrite count_is; lia).
        destruct (cell_run p c LP C) as [qs [_ [IN RF]]]. destruct (Forall2_in_r _ _ _ _ RF Hf) as [v [Hv [_ [FF _]]]]. apply IN in Hv. pose proof (neighbour_in _ _ Hv) as Lv.
        rewrite (vf3_type _ _ _ _ _ _ FF) in CO. destruct (point_site v Lv) as [yv [_ [_ [[_ T]|[L4 [rk [id [wr [_ T]]]]]]]]].
        { rewrite T in CO. exfalso. destruct periodic; cbn in CO; destruct CO as [CO|[? CO]]; discriminate. }
        rewrite T, shown_map in CO.
        assert (K : rk = q /\ id = x /\ q <> r /\ (is_periodic3 wr = true -> periodic = true)).
        { unfold shown_type3, image_type3 in CO. destruct (is_periodic3 wr); cbn [andb] in CO; [destruct periodic; cbn [negb] in CO|]; destruct (Nat.eqb_spec rk r);
            (destruct CO as [CO|[wr' CO]]; try discriminate CO; injection CO; intros; subst; auto). repeat split; auto. intro; discriminate. }
        destruct K as [-> [-> [NQ PE]]]. split; [exact NQ|].
        destruct (cell_ok ranks cfg build_fuel search_fuel pop box particles order circumcircle characteristic_length chunk_size F remap outer similar corners fuel w w' start ended hash_set hash r s here v (conj L4 Lv)) as [cv [_ CV]].
        exists v, cv, wr. split; [exact CV|]. split.
        { assert (NL : ~ 4 <= v < 4 + n).
          { intro X. apply (type_local ranks cfg build_fuel search_fuel pop box particles order circumcircle characteristic_length chunk_size D F remap outer corners fuel w w' start ended r s here) in X.
            destruct X as [_ [i X]]. rewrite T in X. unfold image_type3 in X. destruct (is_periodic3 wr); destruct (Nat.eqb_spec q r); try discriminate; contradiction. }
          pose proof count_is as CI. rewrite CI in Lv. lia. }
        split; [exact T|]. split; [exact PE|]. apply existsb_exists.
        destruct (cell_run v cv (conj L4 Lv) CV) as [qs' [_ [IN' RF']]]. apply neighbour_sym in Hv. apply IN' in Hv. destruct (Forall2_in_l _ _ _ _ RF' Hv) as [f' [Hf' [_ [FF' _]]]].
        exists (shown_face f'). split; [cbn [neighbours3 VoronoiGrid3_Proofs.grid_of]; exact (in_map shown_face _ _ Hf')|]. cbn [shown_face connection3]. rewrite (vf3_type _ _ _ _ _ _ FF').
        pose proof (proj1 (type_local ranks cfg build_fuel search_fuel pop box particles order circumcircle characteristic_length chunk_size D F remap outer corners fuel w w' start ended r s here p) Hp) as [_ [i TI]].
        rewrite TI. now destruct periodic.
  Qed.
End RankWhole.
