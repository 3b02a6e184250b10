(** Orientation, spheres and tetrahedra in space, in coordinates. *)
From Coq Require Import List QArith Qabs Lqa Setoid Field Qminmax.
From Verif Require Import Geometry_Model Geometry_Spec Geometry_Proofs GeometrySolve_Proofs GeometryContains_Proofs GeometryTriangle_Proofs Circle2_Proofs Tiling2_Proofs.
Import ListNotations.
Local Open Scope Q_scope.

(** Positive if [d] is on the side from which [a], [b], [c] ... are seen in the sense of a positively
    oriented tetrahedron. *)
Definition orient3 (a b c d : point3) : Q := volume6 (TT a b c d).
(** The power of [x] with respect to a sphere. *)
Definition pow3 (o : point3) (k : Q) (x : point3) : Q :=
  x3 x * x3 x + y3 x * y3 x + z3 x * z3 x - 2 * (x3 o * x3 x + y3 o * y3 x + z3 o * z3 x) + k.
Definition sph (a b c d : point3) (o : point3) (k : Q) : Prop :=
  pow3 o k a == 0 /\ pow3 o k b == 0 /\ pow3 o k c == 0 /\ pow3 o k d == 0.
(** Inside of the tetrahedron, strictly or not. *)
Definition ins3 (a b c d x : point3) : Prop := 0 < orient3 a b c x /\ 0 < orient3 a d b x /\ 0 < orient3 a c d x /\ 0 < orient3 b d c x.
Definition cls3 (a b c d x : point3) : Prop := 0 <= orient3 a b c x /\ 0 <= orient3 a d b x /\ 0 <= orient3 a c d x /\ 0 <= orient3 b d c x.
Definition mix3 (e : Q) (x y : point3) : point3 :=
  P3 (x3 x + e * (x3 y - x3 x)) (y3 x + e * (y3 y - y3 x)) (z3 x + e * (z3 y - z3 x)).

Ltac coords3 := repeat match goal with a : point3 |- _ => destruct a end;
  unfold orient3, pow3, mix3, dist2_3, volume6, triple in *; cbn [ttp1 ttp2 ttp3 ttp4 x3 y3 z3] in *.

Lemma o3_rot a b c d : orient3 b c a d == orient3 a b c d.
Proof. coords3. ring. Qed.
Lemma o3_swap a b c d : orient3 b a c d == - orient3 a b c d.
Proof. coords3. ring. Qed.
Lemma o3_last a b c d : orient3 a b d c == - orient3 a b c d.
Proof. coords3. ring. Qed.
Lemma o3_sum a b c d x : orient3 a b c x + orient3 a d b x + orient3 a c d x + orient3 b d c x == orient3 a b c d.
Proof. coords3. ring. Qed.
Lemma o3_mix a b c e x y : orient3 a b c (mix3 e x y) == (1 - e) * orient3 a b c x + e * orient3 a b c y.
Proof. coords3. ring. Qed.
Lemma o3_same a b c : orient3 a b c a == 0 /\ orient3 a b c b == 0 /\ orient3 a b c c == 0.
Proof. coords3. repeat split; ring. Qed.
Lemma o3_first a c d : orient3 a a c d == 0.
Proof. coords3. ring. Qed.
Lemma o3_outer a b d : orient3 a b a d == 0.
Proof. coords3. ring. Qed.
Lemma o3_inner a b d : orient3 a b b d == 0.
Proof. coords3. ring. Qed.

(** Affine functions. *)
Definition aff (n : point3) (k : Q) (x : point3) : Q := x3 n * x3 x + y3 n * y3 x + z3 n * z3 x + k.
Lemma aff_bary a b c d x n k :
  orient3 a b c d * aff n k x == orient3 a b c x * aff n k d + orient3 a d b x * aff n k c + orient3 a c d x * aff n k b + orient3 b d c x * aff n k a.
Proof. unfold aff. coords3. ring. Qed.
Definition nrm (a b c : point3) : point3 :=
  P3 ((y3 b - y3 a) * (z3 c - z3 a) - (z3 b - z3 a) * (y3 c - y3 a))
     ((z3 b - z3 a) * (x3 c - x3 a) - (x3 b - x3 a) * (z3 c - z3 a))
     ((x3 b - x3 a) * (y3 c - y3 a) - (y3 b - y3 a) * (x3 c - x3 a)).
Definition ofs (a b c : point3) : Q := - (x3 (nrm a b c) * x3 a + y3 (nrm a b c) * y3 a + z3 (nrm a b c) * z3 a).
Lemma o3_aff a b c x : orient3 a b c x == aff (nrm a b c) (ofs a b c) x.
Proof. unfold aff, ofs, nrm. coords3. ring. Qed.
Lemma o3_bary a b c d x u v w :
  orient3 a b c d * orient3 u v w x == orient3 a b c x * orient3 u v w d + orient3 a d b x * orient3 u v w c + orient3 a c d x * orient3 u v w b + orient3 b d c x * orient3 u v w a.
Proof. rewrite !(o3_aff u v w). apply aff_bary. Qed.
Lemma pow3_aff o k o' k' x : pow3 o k x - pow3 o' k' x ==
  aff (P3 (2 * (x3 o' - x3 o)) (2 * (y3 o' - y3 o)) (2 * (z3 o' - z3 o))) (k - k') x.
Proof. unfold aff, pow3. cbn [x3 y3 z3]. ring. Qed.
Lemma pow3_bary o k o' k' a b c d x :
  orient3 a b c d * (pow3 o k x - pow3 o' k' x) ==
  orient3 a b c x * (pow3 o k d - pow3 o' k' d) + orient3 a d b x * (pow3 o k c - pow3 o' k' c) +
  orient3 a c d x * (pow3 o k b - pow3 o' k' b) + orient3 b d c x * (pow3 o k a - pow3 o' k' a).
Proof. rewrite !pow3_aff. apply aff_bary. Qed.

(** An affine function that is nonnegative at the corners is nonnegative inside. *)
Lemma cls3_affine a b c d x u v w : 0 < orient3 a b c d -> cls3 a b c d x ->
  0 <= orient3 u v w a -> 0 <= orient3 u v w b -> 0 <= orient3 u v w c -> 0 <= orient3 u v w d -> 0 <= orient3 u v w x.
Proof.
  intros H [I1 [I2 [I3 I4]]] A B C D. pose proof (o3_bary a b c d x u v w) as E. apply (qmul_nonneg_inv (orient3 a b c d)); [exact H|].
  rewrite E. pose proof (qmul_nonneg _ _ I1 D). pose proof (qmul_nonneg _ _ I2 C). pose proof (qmul_nonneg _ _ I3 B). pose proof (qmul_nonneg _ _ I4 A). lra.
Qed.
Lemma ins3_cls3 a b c d x : ins3 a b c d x -> cls3 a b c d x.
Proof. unfold ins3, cls3. lra. Qed.
Lemma ins3_affine a b c d x u v w : 0 < orient3 a b c d -> ins3 a b c d x ->
  0 <= orient3 u v w a -> 0 <= orient3 u v w b -> 0 <= orient3 u v w c -> 0 <= orient3 u v w d ->
  0 < orient3 u v w a \/ 0 < orient3 u v w b \/ 0 < orient3 u v w c \/ 0 < orient3 u v w d -> 0 < orient3 u v w x.
Proof.
  intros H [I1 [I2 [I3 I4]]] A B C D K. pose proof (o3_bary a b c d x u v w) as E. apply (qmul_pos_inv (orient3 a b c d)); [exact H|].
  rewrite E. pose proof (qmul_nonneg _ _ (Qlt_le_weak _ _ I1) D). pose proof (qmul_nonneg _ _ (Qlt_le_weak _ _ I2) C).
  pose proof (qmul_nonneg _ _ (Qlt_le_weak _ _ I3) B). pose proof (qmul_nonneg _ _ (Qlt_le_weak _ _ I4) A).
  destruct K as [K|[K|[K|K]]]; [pose proof (qmul_pos _ _ I4 K)|pose proof (qmul_pos _ _ I3 K)|pose proof (qmul_pos _ _ I2 K)|pose proof (qmul_pos _ _ I1 K)]; lra.
Qed.
Lemma cls3_trans a b c d e f g h x : 0 < orient3 a b c d -> cls3 a b c d x ->
  cls3 e f g h a -> cls3 e f g h b -> cls3 e f g h c -> cls3 e f g h d -> cls3 e f g h x.
Proof.
  intros H K [A1 [A2 [A3 A4]]] [B1 [B2 [B3 B4]]] [C1 [C2 [C3 C4]]] [D1 [D2 [D3 D4]]].
  repeat split; eapply cls3_affine; eauto.
Qed.

(** Small steps stay inside. *)
Lemma ins3_open a b c d x y : ins3 a b c d x -> exists e, 0 < e /\ e < 1 /\ ins3 a b c d (mix3 e x y).
Proof.
  intros [I1 [I2 [I3 I4]]]. destruct (small1 _ (orient3 a b c y) I1) as [e1 [A1 [A2 A3]]].
  destruct (small3 _ _ _ (orient3 a d b y) (orient3 a c d y) (orient3 b d c y) I2 I3 I4) as [e2 [B1 [B2 [B3 [B4 B5]]]]].
  destruct (small1 _ (orient3 a d b y) I2) as [e3 [C1 [C2 C3]]]. destruct (small1 _ (orient3 a c d y) I3) as [e4 [D1 [D2 D3]]].
  destruct (small1 _ (orient3 b d c y) I4) as [e5 [F1 [F2 F3]]].
  set (e := Qmin (Qmin e1 e3) (Qmin e4 e5)).
  assert (M : 0 < e) by (unfold e; apply Q.min_glb_lt; apply Q.min_glb_lt; assumption).
  assert (M1 : e <= e1) by (unfold e; eapply Qle_trans; [apply Q.le_min_l|apply Q.le_min_l]).
  assert (M3 : e <= e3) by (unfold e; eapply Qle_trans; [apply Q.le_min_l|apply Q.le_min_r]).
  assert (M4 : e <= e4) by (unfold e; eapply Qle_trans; [apply Q.le_min_r|apply Q.le_min_l]).
  assert (M5 : e <= e5) by (unfold e; eapply Qle_trans; [apply Q.le_min_r|apply Q.le_min_r]).
  exists e. split; [exact M|]. split; [lra|]. unfold ins3. rewrite !o3_mix. auto.
Qed.
Lemma cls3_mix_ins a b c d e x y : 0 < e -> e < 1 -> cls3 a b c d x -> ins3 a b c d y -> ins3 a b c d (mix3 e x y).
Proof.
  intros E1 E2 [C1 [C2 [C3 C4]]] [I1 [I2 [I3 I4]]]. unfold ins3. rewrite !o3_mix.
  pose proof (qmul_nonneg (1 - e) _ ltac:(lra) C1). pose proof (qmul_pos e _ E1 I1).
  pose proof (qmul_nonneg (1 - e) _ ltac:(lra) C2). pose proof (qmul_pos e _ E1 I2).
  pose proof (qmul_nonneg (1 - e) _ ltac:(lra) C3). pose proof (qmul_pos e _ E1 I3).
  pose proof (qmul_nonneg (1 - e) _ ltac:(lra) C4). pose proof (qmul_pos e _ E1 I4). repeat split; lra.
Qed.
Lemma center_ins3 a b c d : 0 < orient3 a b c d -> exists y, ins3 a b c d y.
Proof.
  intro H. exists (P3 ((x3 a + x3 b + x3 c + x3 d) / 4) ((y3 a + y3 b + y3 c + y3 d) / 4) ((z3 a + z3 b + z3 c + z3 d) / 4)).
  unfold ins3.
  assert (E1 : orient3 a b c (P3 ((x3 a + x3 b + x3 c + x3 d) / 4) ((y3 a + y3 b + y3 c + y3 d) / 4) ((z3 a + z3 b + z3 c + z3 d) / 4)) == orient3 a b c d / 4) by (coords3; field).
  assert (E2 : orient3 a d b (P3 ((x3 a + x3 b + x3 c + x3 d) / 4) ((y3 a + y3 b + y3 c + y3 d) / 4) ((z3 a + z3 b + z3 c + z3 d) / 4)) == orient3 a b c d / 4) by (coords3; field).
  assert (E3 : orient3 a c d (P3 ((x3 a + x3 b + x3 c + x3 d) / 4) ((y3 a + y3 b + y3 c + y3 d) / 4) ((z3 a + z3 b + z3 c + z3 d) / 4)) == orient3 a b c d / 4) by (coords3; field).
  assert (E4 : orient3 b d c (P3 ((x3 a + x3 b + x3 c + x3 d) / 4) ((y3 a + y3 b + y3 c + y3 d) / 4) ((z3 a + z3 b + z3 c + z3 d) / 4)) == orient3 a b c d / 4) by (coords3; field).
  rewrite E1, E2, E3, E4. repeat split; apply Qlt_shift_div_l; lra.
Qed.
Lemma corner_cls3 a b c d : 0 < orient3 a b c d -> cls3 a b c d a /\ cls3 a b c d b /\ cls3 a b c d c /\ cls3 a b c d d.
Proof.
  intro H. unfold cls3.
  assert (E1 : orient3 a d b c == orient3 a b c d) by (coords3; ring). assert (E2 : orient3 a c d b == orient3 a b c d) by (coords3; ring).
  assert (E3 : orient3 b d c a == orient3 a b c d) by (coords3; ring).
  destruct (o3_same a b c) as [A1 [A2 A3]]. destruct (o3_same a d b) as [B1 [B2 B3]]. destruct (o3_same a c d) as [C1 [C2 C3]].
  destruct (o3_same b d c) as [D1 [D2 D3]]. repeat split; lra.
Qed.

(** ** Spheres *)
Lemma dist3_nonneg a b : 0 <= dist2_3 a b.
Proof. unfold dist2_3. pose proof (sq_nonneg (x3 a - x3 b)). pose proof (sq_nonneg (y3 a - y3 b)). pose proof (sq_nonneg (z3 a - z3 b)). lra. Qed.

(** Two spheres through [a], [b] and [c]. *)
Lemma pow3_ratio o k o' k' a b c v w : pow3 o k a == 0 -> pow3 o k b == 0 -> pow3 o k c == 0 ->
  pow3 o' k' a == 0 -> pow3 o' k' b == 0 -> pow3 o' k' c == 0 ->
  (pow3 o k v - pow3 o' k' v) * orient3 a b c w == (pow3 o k w - pow3 o' k' w) * orient3 a b c v.
Proof.
  intros A B C A' B' C'. pose proof (pow3_bary o k o' k' a b c w v) as E. rewrite A, B, C, A', B', C' in E. rewrite Qmult_comm. rewrite E. ring.
Qed.
Lemma sph_even a b c d o k : sph a b c d o k -> forall x, x = a \/ x = b \/ x = c \/ x = d -> pow3 o k x == 0.
Proof. intros [A [B [C D]]] x [->|[->|[->| ->]]]; assumption. Qed.

(** The sphere through [a], [b], [c] and [p] lies, on the side of [p], outside of any sphere through
    [a], [b], [c] that contains [p]; and on the other side inside. *)
Lemma pow3_pencil a b c p o k o' k' : 0 < orient3 a b c p -> sph a b c p o k ->
  pow3 o' k' a == 0 -> pow3 o' k' b == 0 -> pow3 o' k' c == 0 ->
  forall v, orient3 a b c p * (pow3 o k v - pow3 o' k' v) == - pow3 o' k' p * orient3 a b c v.
Proof.
  intros H [A [B [C P]]] A' B' C' v. pose proof (pow3_ratio o k o' k' a b c v p A B C A' B' C') as R. rewrite P in R. lra.
Qed.

(** Beyond a face the sphere of the neighbour has the smaller power, if the neighbour's corner
    is outside. *)
Lemma pow3_beyond a b c d q o k o' k' v : 0 < orient3 b a c q -> sph a b c d o k -> sph b a c q o' k' -> 0 < pow3 o k q ->
  orient3 a b c v < 0 -> pow3 o' k' v < pow3 o k v.
Proof.
  intros Hq [A [B [C D]]] [B' [A' [C' Q']]] P V.
  pose proof (pow3_ratio o k o' k' a b c v q A B C A' B' C') as R. rewrite Q' in R.
  pose proof (o3_swap a b c q) as Sw.
  assert (L : (pow3 o k v - pow3 o' k' v) * orient3 b a c q == pow3 o k q * - orient3 a b c v) by (rewrite Sw; lra).
  assert (Pos : 0 < orient3 b a c q * (pow3 o k v - pow3 o' k' v)) by (rewrite Qmult_comm, L; apply qmul_pos; lra).
  apply qmul_pos_inv in Pos; lra.
Qed.

(** The test across a face does not depend on the side it is made from. *)
Lemma pow3_symm a b c d q o k o' k' : 0 < orient3 a b c d -> 0 < orient3 b a c q -> sph a b c d o k -> sph b a c q o' k' ->
  (0 < pow3 o k q <-> 0 < pow3 o' k' d) /\ (pow3 o k q < 0 <-> pow3 o' k' d < 0).
Proof.
  intros Hd Hq [A [B [C D]]] [B' [A' [C' Q']]].
  pose proof (pow3_ratio o k o' k' a b c d q A B C A' B' C') as R. rewrite D, Q' in R. pose proof (o3_swap a b c q) as Sw.
  assert (E : orient3 b a c q * pow3 o' k' d == orient3 a b c d * pow3 o k q) by (rewrite Sw; lra).
  split; split; intro H.
  - apply (qmul_pos_inv (orient3 b a c q)); [lra|]. rewrite E. apply qmul_pos; lra.
  - apply (qmul_pos_inv (orient3 a b c d)); [lra|]. rewrite <- E. apply qmul_pos; lra.
  - assert (0 < - pow3 o' k' d); [|lra]. apply (qmul_pos_inv (orient3 b a c q)); [lra|].
    assert (0 < orient3 a b c d * - pow3 o k q) by (apply qmul_pos; lra). lra.
  - assert (0 < - pow3 o k q); [|lra]. apply (qmul_pos_inv (orient3 a b c d)); [lra|].
    assert (0 < orient3 b a c q * - pow3 o' k' d) by (apply qmul_pos; lra). lra.
Qed.

(** A point from which three faces are seen from outside is not inside of the circumsphere. *)
Lemma three_visible a b c d p o k : 0 < orient3 a b c d -> sph a b c d o k ->
  orient3 a d b p <= 0 -> orient3 a c d p <= 0 -> orient3 b d c p <= 0 -> 0 <= pow3 o k p.
Proof.
  intros H [A [B [C D]]] V1 V2 V3.
  (* seen from [d] *)
  pose proof (o3_sum a b c d p) as S.
  assert (E : orient3 a b c d * pow3 o k p == orient3 a b c d * dist2_3 p d
    + orient3 a d b p * (pow3 o k c - pow3 o k d - dist2_3 c d) + orient3 a c d p * (pow3 o k b - pow3 o k d - dist2_3 b d)
    + orient3 b d c p * (pow3 o k a - pow3 o k d - dist2_3 a d) + orient3 a b c d * pow3 o k d).
  { set (n := P3 (2 * (x3 d - x3 o)) (2 * (y3 d - y3 o)) (2 * (z3 d - z3 o))).
    set (m := 2 * (x3 o * x3 d + y3 o * y3 d + z3 o * z3 d) - 2 * (x3 d * x3 d + y3 d * y3 d + z3 d * z3 d)).
    assert (X : forall y, pow3 o k y - pow3 o k d - dist2_3 y d == aff n m y)
      by (intro y; unfold aff, n, m, pow3, dist2_3; cbn [x3 y3 z3]; ring).
    assert (Y : pow3 o k p == aff n m p + dist2_3 p d + pow3 o k d) by (rewrite <- X; ring).
    assert (Z : aff n m d == 0) by (unfold aff, n, m; cbn [x3 y3 z3]; ring).
    rewrite Y, !X. pose proof (aff_bary a b c d p n m) as W. rewrite Z in W. lra. }
  rewrite A, B, C, D in E. apply (qmul_nonneg_inv (orient3 a b c d)); [exact H|]. rewrite E.
  pose proof (qmul_nonneg (orient3 a b c d) (dist2_3 p d) ltac:(lra) (dist3_nonneg p d)).
  pose proof (qmul_nonneg (- orient3 a d b p) (dist2_3 c d) ltac:(lra) (dist3_nonneg c d)).
  pose proof (qmul_nonneg (- orient3 a c d p) (dist2_3 b d) ltac:(lra) (dist3_nonneg b d)).
  pose proof (qmul_nonneg (- orient3 b d c p) (dist2_3 a d) ltac:(lra) (dist3_nonneg a d)). lra.
Qed.

(** A point inside the tetrahedron is inside of the circumsphere. *)
Lemma dist3_zero a b : dist2_3 a b == 0 -> x3 a == x3 b /\ y3 a == y3 b /\ z3 a == z3 b.
Proof.
  unfold dist2_3. intro H. pose proof (sq_nonneg (x3 a - x3 b)) as H1. pose proof (sq_nonneg (y3 a - y3 b)) as H2. pose proof (sq_nonneg (z3 a - z3 b)) as H3.
  assert (E1 : (x3 a - x3 b) * (x3 a - x3 b) == 0) by lra. assert (E2 : (y3 a - y3 b) * (y3 a - y3 b) == 0) by lra.
  assert (E3 : (z3 a - z3 b) * (z3 a - z3 b) == 0) by lra.
  apply Qmult_integral in E1. apply Qmult_integral in E2. apply Qmult_integral in E3.
  split; [destruct E1; lra|]. split; [destruct E2; lra|destruct E3; lra].
Qed.
Lemma ins3_pow a b c d o k x : 0 < orient3 a b c d -> sph a b c d o k -> ins3 a b c d x -> pow3 o k x < 0.
Proof.
  intros H [A [B [C D]]] [I1 [I2 [I3 I4]]].
  assert (E : orient3 a b c d * pow3 o k x ==
    orient3 a b c x * (pow3 o k d - dist2_3 d x) + orient3 a d b x * (pow3 o k c - dist2_3 c x)
    + orient3 a c d x * (pow3 o k b - dist2_3 b x) + orient3 b d c x * (pow3 o k a - dist2_3 a x)).
  { set (n := P3 (2 * (x3 x - x3 o)) (2 * (y3 x - y3 o)) (2 * (z3 x - z3 o))).
    set (m := k - (x3 x * x3 x + y3 x * y3 x + z3 x * z3 x)).
    assert (X : forall y, pow3 o k y - dist2_3 y x == aff n m y)
      by (intro y; unfold aff, n, m, pow3, dist2_3; cbn [x3 y3 z3]; ring).
    assert (Y : pow3 o k x == aff n m x) by (unfold aff, n, m, pow3; cbn [x3 y3 z3]; ring).
    rewrite Y, !X. apply aff_bary. }
  rewrite A, B, C, D in E.
  assert (P : 0 < dist2_3 d x \/ 0 < dist2_3 c x).
  { destruct (Q_dec (dist2_3 d x) 0) as [[L|L]|L]; [pose proof (dist3_nonneg d x); lra|tauto|]. right.
    destruct (Q_dec (dist2_3 c x) 0) as [[L'|L']|L']; [pose proof (dist3_nonneg c x); lra|exact L'|]. exfalso.
    apply dist3_zero in L'. destruct L' as [E1 [E2 E3]]. destruct (o3_same a b c) as [_ [_ Z]].
    assert (W : orient3 a b c x == orient3 a b c c) by (unfold orient3, volume6, triple; cbn [ttp1 ttp2 ttp3 ttp4]; rewrite E1, E2, E3; reflexivity). lra. }
  assert (0 < - pow3 o k x); [|lra]. apply (qmul_pos_inv (orient3 a b c d)); [exact H|].
  pose proof (qmul_nonneg _ _ (Qlt_le_weak _ _ I1) (dist3_nonneg d x)). pose proof (qmul_nonneg _ _ (Qlt_le_weak _ _ I2) (dist3_nonneg c x)).
  pose proof (qmul_nonneg _ _ (Qlt_le_weak _ _ I3) (dist3_nonneg b x)). pose proof (qmul_nonneg _ _ (Qlt_le_weak _ _ I4) (dist3_nonneg a x)).
  destruct P as [P|P]; [pose proof (qmul_pos _ _ I1 P)|pose proof (qmul_pos _ _ I2 P)]; lra.
Qed.

(** Existence and use of the sphere. *)
Lemma sph_of_center a b c d o : circumscribed3 (TT a b c d) o ->
  sph a b c d o (2 * (x3 o * x3 a + y3 o * y3 a + z3 o * z3 a) - (x3 a * x3 a + y3 a * y3 a + z3 a * z3 a)).
Proof.
  intros [H1 [H2 H3]]. unfold dist2_3 in H1, H2, H3. cbn [ttp1 ttp2 ttp3 ttp4] in *. unfold sph, pow3. repeat split; lra.
Qed.
Lemma sph_center a b c d o k : sph a b c d o k -> circumscribed3 (TT a b c d) o.
Proof.
  intros [A [B [C D]]]. unfold pow3 in *. split; [|split]; unfold dist2_3; cbn [ttp1 ttp2 ttp3 ttp4]; lra.
Qed.
Lemma sph_dist a b c d o k x : sph a b c d o k -> dist2_3 o x - dist2_3 o a == pow3 o k x.
Proof. intros [A _]. unfold pow3 in *. unfold dist2_3. lra. Qed.
Lemma sph_exists a b c d : 0 < orient3 a b c d -> exists o k, sph a b c d o k.
Proof.
  intro H. do 2 eexists. apply sph_of_center. apply circumcenter3_ok. unfold orient3 in H. lra.
Qed.
Lemma sph_unique a b c d o k o' k' x : 0 < orient3 a b c d -> sph a b c d o k -> sph a b c d o' k' -> pow3 o k x == pow3 o' k' x.
Proof.
  intros H [A [B [C D]]] [A' [B' [C' D']]]. pose proof (pow3_bary o k o' k' a b c d x) as E.
  rewrite A, B, C, D, A', B', C', D' in E.
  assert (Z : orient3 a b c d * (pow3 o k x - pow3 o' k' x) == 0) by (rewrite E; ring).
  apply Qmult_integral in Z. destruct Z as [Z|Z]; lra.
Qed.
