(** The tetrahedra around one point of a triangulation that knows everything close to it are those with empty circumspheres. *)
From Coq Require Import List Arith QArith Lqa Lia Permutation Setoid.
From Verif Require Import Geometry_Model Geometry_Spec Delaunay_Model Delaunay_Spec DelaunayGlobal3_Spec Delaunay3_Proofs Circle2_Proofs Tiling2_Proofs Sphere3_Proofs Tiling3_Proofs DelaunayUnique2_Proofs
  DelaunayLink3_Proofs DelaunayGlobal3_Proofs DelaunayUnique3_Proofs Voronoi3_Proofs.
Import ListNotations.
Local Open Scope Q_scope.

Section Star.
  Variable pts : nat -> point3.
  Variable s : triangulation.
  Hypothesis G : good3 pts s.
  Variable p : nat.
  Hypothesis inner : (4 <= p < num_points s)%nat.
  Variable site : point3 -> Prop.
  Hypothesis own : forall v, (v < num_points s)%nat -> exists y, site y /\ same_point3 (pts v) y.
  Hypothesis found : forall i a b c o k y, tet s i p a b c -> sph (pts p) (pts a) (pts b) (pts c) o k -> site y -> pow3 o k y <= 0 ->
    exists v, (v < num_points s)%nat /\ same_point3 (pts v) y.
  Let L := g3_tiling _ _ G.

  Lemma star_corner i a b c o k y : tet s i p a b c -> sph (pts p) (pts a) (pts b) (pts c) o k -> site y -> pow3 o k y <= 0 ->
    exists v, (v = p \/ v = a \/ v = b \/ v = c) /\ same_point3 (pts v) y.
  Proof.
    intros T C Y LE. destruct (found i a b c o k y T C Y LE) as [v [Lv E]]. exists v. split; [|exact E].
    destruct (Nat.eq_dec v p) as [->|N1]; [tauto|]. destruct (Nat.eq_dec v a) as [->|N2]; [tauto|].
    destruct (Nat.eq_dec v b) as [->|N3]; [tauto|]. destruct (Nat.eq_dec v c) as [->|N4]; [tauto|].
    exfalso. pose proof (g3_empty _ _ G i p a b c o k v T C Lv N1 N2 N3 N4) as K. rewrite E in K. lra.
  Qed.
  Lemma star_nonneg i a b c o k y : tet s i p a b c -> sph (pts p) (pts a) (pts b) (pts c) o k -> site y -> 0 <= pow3 o k y.
  Proof.
    intros T C Y. destruct (Qlt_le_dec (pow3 o k y) 0) as [K|K]; [exfalso|exact K].
    destruct (star_corner i a b c o k y T C Y ltac:(lra)) as [v [H E]]. rewrite <- E in K. destruct C as [C1 [C2 [C3 C4]]].
    destruct H as [->|[->|[->| ->]]]; lra.
  Qed.
  (** Tetrahedra of the triangulation are empty. *)
  Lemma star_empty i a b c o k y : tet s i p a b c -> sph (pts p) (pts a) (pts b) (pts c) o k -> site y ->
    0 < pow3 o k y \/ same_point3 y (pts p) \/ same_point3 y (pts a) \/ same_point3 y (pts b) \/ same_point3 y (pts c).
  Proof.
    intros T C Y. destruct (Qlt_le_dec 0 (pow3 o k y)) as [K|K]; [now left|right].
    destruct (star_corner i a b c o k y T C Y K) as [v [H E]]. symmetry in E. destruct H as [->|[->|[->| ->]]]; tauto.
  Qed.
  (** Empty tetrahedra are tetrahedra of the triangulation. *)
  Lemma star_found y1 y2 y3 : site y1 -> site y2 -> site y3 -> 0 < orient3 (pts p) y1 y2 y3 ->
    (forall o k y, sph (pts p) y1 y2 y3 o k -> site y -> 0 <= pow3 o k y) ->
    exists i a b c, tet s i p a b c /\ same_point3 (pts a) y1 /\ same_point3 (pts b) y2 /\ same_point3 (pts c) y3.
  Proof.
    intros S1 S2 S3 P0 HE. destruct (sph_exists _ _ _ _ P0) as [o [k C]]. pose proof C as [C1 [C2 [C3 C4]]].
    destruct (center_ins3 _ _ _ _ P0) as [x Hx].
    destruct (star_cone3' pts s p G inner x) as [i [a [b [c [T [U1 [U2 U3]]]]]]].
    pose proof (t3_pos _ _ _ L _ _ _ _ _ T) as Pi. destruct (t3_lts pts _ _ L _ _ _ _ _ T) as [Lp [La [Lb Lc]]].
    destruct (sph_exists _ _ _ _ Pi) as [o' [k' C']]. pose proof C' as [D1 [D2 [D3 D4]]].
    pose proof (pow3_bary o k o' k' (pts p) (pts a) (pts b) (pts c) x) as B1. rewrite C1, D1, D2, D3, D4 in B1.
    pose proof (pow3_bary o k o' k' (pts p) y1 y2 y3 x) as B2. rewrite C1, C2, C3, C4, D1 in B2.
    assert (HE' : forall v, (v < num_points s)%nat -> 0 <= pow3 o k (pts v)).
    { intros v Lv. destruct (own v Lv) as [y [Y E]]. rewrite E. exact (HE o k y C Y). }
    pose proof (HE' a La) as F1. pose proof (HE' b Lb) as F2. pose proof (HE' c Lc) as F3.
    pose proof (star_nonneg i a b c o' k' y1 T C' S1) as G1. pose proof (star_nonneg i a b c o' k' y2 T C' S2) as G2.
    pose proof (star_nonneg i a b c o' k' y3 T C' S3) as G3.
    destruct Hx as [X1 [X2 [X3 X4]]].
    assert (V1 : orient3 (pts p) (pts a) (pts b) x == orient3 (pts p) (pts a) (pts b) x) by reflexivity.
    assert (V2 : orient3 (pts p) (pts c) (pts a) x == orient3 (pts p) (pts a) x (pts c)) by (generalize (pts p), (pts a), (pts c); intros; coords3; ring).
    assert (V3 : orient3 (pts p) (pts b) (pts c) x == orient3 (pts p) x (pts b) (pts c)) by (generalize (pts p), (pts b), (pts c); intros; coords3; ring).
    rewrite V2, V3 in B1.
    assert (N1 : 0 <= pow3 o k x - pow3 o' k' x).
    { apply (qmul_nonneg_inv _ _ Pi). rewrite B1.
      pose proof (qmul_nonneg _ _ U1 F1). pose proof (qmul_nonneg _ _ U2 F2). pose proof (qmul_nonneg _ _ U3 F3). lra. }
    pose proof (qmul_nonneg _ _ (Qlt_le_weak _ _ P0) N1) as N2. rewrite B2 in N2.
    pose proof (qmul_nonneg _ _ (Qlt_le_weak _ _ X3) G1) as Q2.
    pose proof (qmul_nonneg _ _ (Qlt_le_weak _ _ X2) G2) as Q3. pose proof (qmul_nonneg _ _ (Qlt_le_weak _ _ X1) G3) as Q4.
    assert (Z : forall s t, 0 < s -> 0 <= t -> s * t <= 0 -> t <= 0).
    { intros s0 t Hs Ht Hst. destruct (Qlt_le_dec 0 t) as [K|K]; [|exact K]. pose proof (qmul_pos s0 t Hs K). lra. }
    assert (Z1 : pow3 o' k' y1 <= 0) by (apply (Z _ _ X3 G1); lra).
    assert (Z2 : pow3 o' k' y2 <= 0) by (apply (Z _ _ X2 G2); lra).
    assert (Z3 : pow3 o' k' y3 <= 0) by (apply (Z _ _ X1 G3); lra).
    destruct (star_corner i a b c o' k' y1 T C' S1 Z1) as [v1 [M1 E1]]. destruct (star_corner i a b c o' k' y2 T C' S2 Z2) as [v2 [M2 E2]].
    destruct (star_corner i a b c o' k' y3 T C' S3 Z3) as [v3 [M3 E3]].
    assert (P1 : 0 < orient3 (pts p) (pts v1) (pts v2) (pts v3)) by (rewrite E1, E2, E3; exact P0).
    clear - L T M1 M2 M3 E1 E2 E3 P1 Pi.
    pose proof (o3_distinct pts p v1 v2 v3 P1) as [N1 [N2 [N3 [N4 [N5 N6]]]]].
    pose proof (o3_distinct pts p a b c Pi) as [K1 [K2 [K3 [K4 [K5 K6]]]]].
    exists i, v1, v2, v3. split; [|auto].
    assert (PE : Permutation [p; a; b; c] [p; v1; v2; v3]).
    { apply Permutation_sym. apply NoDup_Permutation_bis.
      - now apply nodup4.
      - cbn. lia.
      - intros v [<-|[<-|[<-|[<-|[]]]]]; apply member4; tauto. }
    destruct (perm4_even p a b c p v1 v2 v3 (nodup4 _ _ _ _ K1 K2 K3 K4 K5 K6) PE) as [K|K].
    - exact (t3_even _ _ _ L _ _ _ _ _ _ _ _ _ T K).
    - exfalso. pose proof (even_o3 pts _ _ _ _ _ _ _ _ K) as W. rewrite (o3_swap (pts p) (pts a)) in W. lra.
  Qed.
End Star.
