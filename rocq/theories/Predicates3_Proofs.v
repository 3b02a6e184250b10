(** What the geometric tests of the construction in space say about orientations and powers. *)
From Coq Require Import List Arith Lia QArith Qabs Lqa Setoid Field.
From Verif Require Import Geometry_Model Geometry_Spec Geometry_Proofs GeometrySolve_Proofs GeometryContains_Proofs GeometryTriangle_Proofs
  Circle2_Proofs Tiling2_Proofs Sphere3_Proofs.
Import ListNotations.
Local Open Scope Q_scope.

(** Strictly inside. *)
Lemma mean4_orient a b c d x l1 l2 l3 l4 : mean4 (TT a b c d) l1 l2 l3 l4 x ->
  orient3 a b c x == l4 * orient3 a b c d /\ orient3 a d b x == l3 * orient3 a b c d /\
  orient3 a c d x == l2 * orient3 a b c d /\ orient3 b d c x == l1 * orient3 a b c d.
Proof.
  intros [M1 [M2 [M3 M4]]]. cbn [ttp1 ttp2 ttp3 ttp4] in *. assert (E : l1 == 1 - l2 - l3 - l4) by lra.
  repeat split; unfold orient3, volume6, triple; cbn [ttp1 ttp2 ttp3 ttp4]; rewrite M2, M3, M4, E; ring.
Qed.
Lemma orient_mean4 a b c d x : 0 < orient3 a b c d ->
  mean4 (TT a b c d) (orient3 b d c x / orient3 a b c d) (orient3 a c d x / orient3 a b c d) (orient3 a d b x / orient3 a b c d) (orient3 a b c x / orient3 a b c d) x.
Proof.
  intro H. pose proof (o3_sum a b c d x) as S. split; [|split; [|split]]; cbn [ttp1 ttp2 ttp3 ttp4].
  - rewrite <- S. field. lra.
  - pose proof (aff_bary a b c d x (P3 1 0 0) 0) as E. unfold aff in E. cbn [x3 y3 z3] in E.
    apply (Qmult_inj_r _ _ (orient3 a b c d)); [lra|].
    transitivity (orient3 b d c x * x3 a + orient3 a c d x * x3 b + orient3 a d b x * x3 c + orient3 a b c x * x3 d); [lra|field; lra].
  - pose proof (aff_bary a b c d x (P3 0 1 0) 0) as E. unfold aff in E. cbn [x3 y3 z3] in E.
    apply (Qmult_inj_r _ _ (orient3 a b c d)); [lra|].
    transitivity (orient3 b d c x * y3 a + orient3 a c d x * y3 b + orient3 a d b x * y3 c + orient3 a b c x * y3 d); [lra|field; lra].
  - pose proof (aff_bary a b c d x (P3 0 0 1) 0) as E. unfold aff in E. cbn [x3 y3 z3] in E.
    apply (Qmult_inj_r _ _ (orient3 a b c d)); [lra|].
    transitivity (orient3 b d c x * z3 a + orient3 a c d x * z3 b + orient3 a d b x * z3 c + orient3 a b c x * z3 d); [lra|field; lra].
Qed.
Lemma ins3_strict a b c d x : 0 < orient3 a b c d -> (strictly_inside3 (TT a b c d) x <-> ins3 a b c d x).
Proof.
  intro H. split.
  - intros [l1 [l2 [l3 [l4 [M [L1 [L2 [L3 L4]]]]]]]]. destruct (mean4_orient a b c d x l1 l2 l3 l4 M) as [E1 [E2 [E3 E4]]].
    unfold ins3. rewrite E1, E2, E3, E4. repeat split; apply qmul_pos; assumption.
  - intros [I1 [I2 [I3 I4]]]. do 4 eexists. split; [exact (orient_mean4 a b c d x H)|]. repeat split; apply Qlt_shift_div_l; lra.
Qed.
Lemma cls3_in_tetra a b c d x : 0 < orient3 a b c d -> (in_tetra (TT a b c d) x <-> cls3 a b c d x).
Proof.
  intro H. split.
  - intros [l1 [l2 [l3 [l4 [M [L1 [L2 [L3 L4]]]]]]]]. destruct (mean4_orient a b c d x l1 l2 l3 l4 M) as [E1 [E2 [E3 E4]]].
    unfold cls3. rewrite E1, E2, E3, E4. repeat split; apply qmul_nonneg; lra.
  - intros [I1 [I2 [I3 I4]]]. do 4 eexists. split; [exact (orient_mean4 a b c d x H)|]. repeat split; apply Qle_shift_div_l; lra.
Qed.
Lemma inside3_test a b c d x : 0 < orient3 a b c d -> (contains3 (TT a b c d) x = Some true <-> ins3 a b c d x).
Proof.
  intro H. assert (H0 : ~ volume6 (TT a b c d) == 0) by (unfold orient3 in H; lra).
  rewrite (proj1 (contains3_ok (TT a b c d) x H0)). now apply ins3_strict.
Qed.

(** The sphere. *)
Lemma dist3_apart a b : ~ (x3 a == x3 b /\ y3 a == y3 b /\ z3 a == z3 b) -> 0 < dist2_3 a b.
Proof.
  intro N. destruct (Q_dec (dist2_3 a b) 0) as [[L|L]|L]; [pose proof (dist3_nonneg a b); lra|exact L|]. exfalso. apply N. now apply dist3_zero.
Qed.
Lemma abs_det az bz cz p1 p2 p3 p4 p5 p6 :
  Qabs az * (Qabs p1 + Qabs p2) + Qabs bz * (Qabs p3 + Qabs p4) + Qabs cz * (Qabs p5 + Qabs p6) == 0 ->
  az * p1 == 0 /\ az * p2 == 0 /\ bz * p3 == 0 /\ bz * p4 == 0 /\ cz * p5 == 0 /\ cz * p6 == 0.
Proof.
  intro H.
  assert (Z : forall u v, 0 <= Qabs u * Qabs v) by (intros; apply qmul_nonneg; apply Qabs_nonneg).
  pose proof (Z az p1). pose proof (Z az p2). pose proof (Z bz p3). pose proof (Z bz p4). pose proof (Z cz p5). pose proof (Z cz p6).
  assert (X : forall u v, Qabs u * Qabs v == 0 -> u * v == 0).
  { intros u v E. rewrite <- Qabs_Qmult in E. destruct (Q_dec (u * v) 0) as [[L|L]|L]; [| |exact L]; exfalso.
    - rewrite Qabs_neg in E; lra.
    - rewrite Qabs_pos in E; lra. }
  repeat split; apply X; lra.
Qed.
Lemma float_tie a b c d e : 0 < orient3 a b c d -> 0 < dist2_3 a e -> 0 < dist2_3 b e -> 0 < dist2_3 c e -> 0 < dist2_3 d e ->
  circumcircle_contains3_float (TT a b c d) e = Some false -> forall o k, sph a b c d o k -> 0 < pow3 o k e.
Proof.
  intros HV Da Db Dc Dd HF o k S.
  destruct (Qlt_le_dec 0 (pow3 o k e)) as [L|L]; [exact L|]. exfalso.
  pose proof (circumsphere_float (TT a b c d) o e false HV (sph_center _ _ _ _ _ _ S) HF) as W.
  pose proof (sph_dist a b c d o k e S) as SD. cbn [ttp1] in W.
  assert (E0 : pow3 o k e == 0).
  { destruct (Q_dec (pow3 o k e) 0) as [[L'|L']|L']; [|lra|exact L']. exfalso. assert (X : false = true) by (apply W; lra). discriminate. }
  assert (V0 : dist2_3 o e - dist2_3 o a == 0) by lra.
  pose proof (in_sphere_value (TT a b c d) o e (sph_center _ _ _ _ _ _ S)) as E. cbn [ttp1 ttp2 ttp3 ttp4] in E. rewrite V0, Qmult_0_r in E.
  clear W SD E0 V0 L S o k. revert HF E HV Da Db Dc Dd.
  destruct a as [ax ay az], b as [bx by_ bz], c as [cx cy cz], d as [dx dy dz], e as [ex ey ez].
  unfold circumcircle_contains3_float, dist2_3, norm2. cbn [ttp1 ttp2 ttp3 ttp4 x3 y3 z3]. rewrite <- det5_shift.
  intros HF E HV Da Db Dc Dd.
  assert (HV' : 0 < orient3 (P3 (ax - ex) (ay - ey) (az - ez)) (P3 (bx - ex) (by_ - ey) (bz - ez)) (P3 (cx - ex) (cy - ey) (cz - ez)) (P3 (dx - ex) (dy - ey) (dz - ez))).
  { eapply Qlt_le_trans; [exact HV|]. apply Qle_lteq. right. unfold orient3, volume6, triple. cbn [ttp1 ttp2 ttp3 ttp4 x3 y3 z3]. ring. }
  clear HV. revert HF E HV' Da Db Dc Dd.
  generalize (ax - ex) (ay - ey) (az - ez) (bx - ex) (by_ - ey) (bz - ez) (cx - ex) (cy - ey) (cz - ez) (dx - ex) (dy - ey) (dz - ez).
  clear. intros ax ay az bx by_ bz cx cy cz dx dy dz. cbv zeta.
  match goal with |- (if check ?w ?b then _ else _) = _ -> _ => set (v := w); set (bound := b) end.
  intros HF E HV Da Db Dc Dd.
  assert (EV : v == 0).
  { pose proof (float_value ax ay az bx by_ bz cx cy cz dx dy dz) as FV. cbv zeta in FV. unfold v. rewrite FV, E. reflexivity. }
  assert (HB : bound <= 0).
  { destruct (check v bound) eqn:C; [|discriminate]. unfold check in C. apply Qle_bool_iff in C.
    assert (Qabs v == 0) by (rewrite EV; reflexivity). lra. }
  clear HF E EV v. unfold bound in HB. clear bound.
  assert (Z : forall u v, 0 <= Qabs u * Qabs v) by (intros; apply qmul_nonneg; apply Qabs_nonneg).
  assert (NN : forall az bz cz p1 p2 p3 p4 p5 p6,
    0 <= Qabs az * (Qabs p1 + Qabs p2) + Qabs bz * (Qabs p3 + Qabs p4) + Qabs cz * (Qabs p5 + Qabs p6)).
  { intros A B C p1 p2 p3 p4 p5 p6. pose proof (Z A p1). pose proof (Z A p2). pose proof (Z B p3). pose proof (Z B p4). pose proof (Z C p5). pose proof (Z C p6). lra. }
  pose proof (NN az bz cz (bx * cy) (cx * by_) (ax * cy) (cx * ay) (ax * by_) (bx * ay)) as N1.
  pose proof (NN bz cz dz (cx * dy) (dx * cy) (bx * dy) (dx * by_) (bx * cy) (cx * by_)) as N2.
  pose proof (NN cz dz az (dx * ay) (ax * dy) (ax * cy) (cx * ay) (cx * dy) (dx * cy)) as N3.
  pose proof (NN dz az bz (ax * by_) (bx * ay) (bx * dy) (dx * by_) (dx * ay) (ax * dy)) as N4.
  remember (Qabs az * (Qabs (bx * cy) + Qabs (cx * by_)) + Qabs bz * (Qabs (ax * cy) + Qabs (cx * ay)) + Qabs cz * (Qabs (ax * by_) + Qabs (bx * ay))) as s1 eqn:E1.
  remember (Qabs bz * (Qabs (cx * dy) + Qabs (dx * cy)) + Qabs cz * (Qabs (bx * dy) + Qabs (dx * by_)) + Qabs dz * (Qabs (bx * cy) + Qabs (cx * by_))) as s2 eqn:E2.
  remember (Qabs cz * (Qabs (dx * ay) + Qabs (ax * dy)) + Qabs dz * (Qabs (ax * cy) + Qabs (cx * ay)) + Qabs az * (Qabs (cx * dy) + Qabs (dx * cy))) as s3 eqn:E3.
  remember (Qabs dz * (Qabs (ax * by_) + Qabs (bx * ay)) + Qabs az * (Qabs (bx * dy) + Qabs (dx * by_)) + Qabs bz * (Qabs (dx * ay) + Qabs (ax * dy))) as s4 eqn:E4.
  pose proof (qmul_nonneg _ _ (Qlt_le_weak _ _ Dc) N4) as M4. pose proof (qmul_nonneg _ _ (Qlt_le_weak _ _ Dd) N1) as M1.
  pose proof (qmul_nonneg _ _ (Qlt_le_weak _ _ Da) N2) as M2. pose proof (qmul_nonneg _ _ (Qlt_le_weak _ _ Db) N3) as M3.
  assert (Z0 : forall D s, 0 < D -> 0 <= s -> D * s <= 0 -> s == 0).
  { intros D s0 HD Hs Hm. destruct (Qlt_le_dec 0 s0) as [L|L]; [pose proof (qmul_pos _ _ HD L); lra|lra]. }
  assert (Z1 : s1 == 0) by (apply (Z0 _ _ Dd N1); lra). assert (Z2 : s2 == 0) by (apply (Z0 _ _ Da N2); lra).
  assert (Z3 : s3 == 0) by (apply (Z0 _ _ Db N3); lra). assert (Z4 : s4 == 0) by (apply (Z0 _ _ Dc N4); lra).
  subst s1 s2 s3 s4. apply abs_det in Z1. apply abs_det in Z2. apply abs_det in Z3. apply abs_det in Z4.
  unfold orient3, volume6, triple in HV. cbn [ttp1 ttp2 ttp3 ttp4 x3 y3 z3] in HV.
  clear - HV Z1 Z2 Z3 Z4. lra.
Qed.
Lemma circle3_test a b c d o k x : 0 < orient3 a b c d -> sph a b c d o k ->
  (circumcircle_contains3 (TT a b c d) x = Some true -> pow3 o k x < 0) /\
  (0 < dist2_3 a x -> 0 < dist2_3 b x -> 0 < dist2_3 c x -> 0 < dist2_3 d x ->
   circumcircle_contains3 (TT a b c d) x = Some false -> 0 < pow3 o k x) /\
  (~ pow3 o k x == 0 -> circumcircle_contains3 (TT a b c d) x <> None).
Proof.
  intros H S. pose proof (sph_dist a b c d o k x S) as E.
  destruct (circumsphere (TT a b c d) o x H (sph_center _ _ _ _ _ _ S)) as [T1 [T2 T3]]. cbn [ttp1] in *.
  split; [|split].
  - intro X. apply T1 in X. lra.
  - intros Da Db Dc Dd X. unfold circumcircle_contains3 in X.
    destruct (circumcircle_contains3_float (TT a b c d) x) as [b0|] eqn:EF.
    + injection X as ->. exact (float_tie a b c d x H Da Db Dc Dd EF o k S).
    + destruct (circumsphere_exact (TT a b c d) o x H (sph_center _ _ _ _ _ _ S)) as [_ [S2 _]]. apply S2 in X. cbn [ttp1] in X. lra.
  - intros X Y. apply T3 in Y. apply X. lra.
Qed.

(** The line from [p] to [e] and the triangle [abc] between them. *)
Lemma crossing_weights a b c p e : orient3 a b c p * orient3 a b c e < 0 ->
  exists l1 l2 l3, (forall i, get_line_intersection_type (T3 a b c) p e = Some i -> describes i l1 l2 l3) /\
    (get_line_intersection_type (T3 a b c) p e = None -> l1 == 0 \/ l2 == 0 \/ l3 == 0) /\
    (forall s, 0 < s * l1 <-> 0 < s * (orient3 b c e p * orient3 a b c p)) /\ (forall s, 0 < s * l2 <-> 0 < s * (orient3 c a e p * orient3 a b c p)) /\
    (forall s, 0 < s * l3 <-> 0 < s * (orient3 a b e p * orient3 a b c p)).
Proof.
  intros Hpe. set (D := orient3 a b c p) in *. set (E := orient3 a b c e) in *.
  assert (DE : 0 < D * (D - E)).
  { assert (0 <= D * D) by (destruct (Qlt_le_dec D 0); [assert (0 <= - D * - D) by (apply qmul_nonneg; lra); lra|apply qmul_nonneg; assumption]). lra. }
  assert (DD : 0 < D * D).
  { destruct (Q_dec D 0) as [[L|L]|L].
    - assert (0 < - D * - D) by (apply qmul_pos; lra). lra.
    - now apply qmul_pos.
    - rewrite L in Hpe. lra. }
  assert (NP : ~ parallel (T3 a b c) p e).
  { intro F. unfold parallel in F. cbn [t3p1 t3p2 t3p3] in F.
    assert (X : E - D == 0) by (rewrite <- F; unfold D, E, orient3, volume6, triple; cbn [ttp1 ttp2 ttp3 ttp4]; ring).
    assert (X' : E == D) by lra. rewrite X' in Hpe. lra. }
  destruct (line_intersection_ok (T3 a b c) p e NP) as (l1 & l2 & l3 & [k [M1 [M2 [M3 M4]]]] & A & B).
  exists l1, l2, l3. split; [intro i; apply A|]. split; [apply B|]. cbn [t3p1 t3p2 t3p3 x3 y3 z3] in *.
  set (x := P3 (x3 p + k * (x3 e - x3 p)) (y3 p + k * (y3 e - y3 p)) (z3 p + k * (z3 e - z3 p))).
  assert (L : l1 == 1 - l2 - l3) by lra.
  assert (X0 : orient3 a b c x == 0).
  { unfold x, orient3, volume6, triple. cbn [ttp1 ttp2 ttp3 ttp4 x3 y3 z3]. rewrite M2, M3, M4, L. ring. }
  assert (X1 : orient3 a b c x == (1 - k) * D + k * E) by apply (o3_mix a b c k p e).
  assert (Kp : 0 < k).
  { apply (qmul_pos_inv (D * (D - E))); [exact DE|]. assert (X2 : D * (D - E) * k == D * D) by (assert (X3 : k * (D - E) == D) by lra; rewrite <- Qmult_assoc, (Qmult_comm (D - E)), X3; reflexivity). lra. }
  assert (F : forall u v, orient3 u v x p == k * orient3 u v e p).
  { intros u v. unfold x. clear. coords3. ring. }
  assert (G1 : orient3 b c x p == l1 * D).
  { unfold x, D, orient3, volume6, triple. cbn [ttp1 ttp2 ttp3 ttp4 x3 y3 z3]. rewrite M2, M3, M4, L. ring. }
  assert (G2 : orient3 c a x p == l2 * D).
  { unfold x, D, orient3, volume6, triple. cbn [ttp1 ttp2 ttp3 ttp4 x3 y3 z3]. rewrite M2, M3, M4, L. ring. }
  assert (G3 : orient3 a b x p == l3 * D).
  { unfold x, D, orient3, volume6, triple. cbn [ttp1 ttp2 ttp3 ttp4 x3 y3 z3]. rewrite M2, M3, M4, L. ring. }
  assert (W : forall l w, k * w == l * D -> forall s, 0 < s * l <-> 0 < s * (w * D)).
  { intros l w Q s. assert (Z : k * (s * (w * D)) == s * l * (D * D)) by (transitivity (s * (k * w) * D); [ring|rewrite Q; ring]). split; intro Y.
    - apply (qmul_pos_inv k _ Kp). pose proof (qmul_pos _ _ Y DD). lra.
    - apply (qmul_pos_inv (D * D) _ DD). pose proof (qmul_pos _ _ Kp Y). lra. }
  split; [|split]; apply W; rewrite <- F; assumption.
Qed.
Lemma crossing_signs a b c p e i : orient3 a b c p * orient3 a b c e < 0 ->
  get_line_intersection_type (T3 a b c) p e = Some i ->
  exists l1 l2 l3, describes i l1 l2 l3 /\
    (forall s, 0 < s * l1 <-> 0 < s * (orient3 b c e p * orient3 a b c p)) /\ (forall s, 0 < s * l2 <-> 0 < s * (orient3 c a e p * orient3 a b c p)) /\
    (forall s, 0 < s * l3 <-> 0 < s * (orient3 a b e p * orient3 a b c p)).
Proof.
  intros Hpe Hi. destruct (crossing_weights a b c p e Hpe) as (l1 & l2 & l3 & A & _ & S1 & S2 & S3).
  exists l1, l2, l3. split; [exact (A i Hi)|]. split; [exact S1|]. split; [exact S2|exact S3].
Qed.
(** The test fails only when the line meets the line through one of the sides. *)
Lemma crossing_none a b c p e : orient3 a b c p * orient3 a b c e < 0 -> get_line_intersection_type (T3 a b c) p e = None ->
  orient3 b c e p == 0 \/ orient3 c a e p == 0 \/ orient3 a b e p == 0.
Proof.
  intros Hpe H. destruct (crossing_weights a b c p e Hpe) as (l1 & l2 & l3 & _ & B & S1 & S2 & S3).
  assert (Z : forall l w, l == 0 -> (forall s, 0 < s * l <-> 0 < s * (w * orient3 a b c p)) -> w == 0).
  { clear - Hpe. set (D := orient3 a b c p) in *. set (E := orient3 a b c e) in *. intros l w E0 S.
    assert (W : w * D == 0).
    { pose proof (proj2 (S 1)) as U. pose proof (proj2 (S (-(1)))) as V. rewrite E0 in U, V.
      destruct (Q_dec (w * D) 0) as [[L|L]|L]; [|  |exact L].
      - assert (K : 0 < -(1) * 0) by (apply V; lra). lra.
      - assert (K : 0 < 1 * 0) by (apply U; lra). lra. }
    apply Qmult_integral in W. destruct W as [W|W]; [exact W|]. rewrite W in Hpe. lra. }
  destruct (B H) as [E|[E|E]]; [left; exact (Z _ _ E S1)|right; left; exact (Z _ _ E S2)|right; right; exact (Z _ _ E S3)].
Qed.
(** Seen from the side of a positive orientation of [abc] and [p]. *)
Lemma sgn_iff l w D : 0 < D -> (forall s, 0 < s * l <-> 0 < s * (w * D)) -> (0 < l -> 0 < w) /\ (l < 0 -> w < 0).
Proof.
  intros HD H. split; intro L.
  - apply (qmul_pos_inv D _ HD). assert (0 < 1 * (w * D)) by (apply H; lra). lra.
  - assert (0 < - w); [|lra]. apply (qmul_pos_inv D _ HD). assert (0 < - (1) * (w * D)) by (apply H; lra). lra.
Qed.
Lemma crossing_front a b c p e i : 0 < orient3 a b c p -> 0 < orient3 b a c e ->
  get_line_intersection_type (T3 a b c) p e = Some i ->
  exists l1 l2 l3, describes i l1 l2 l3 /\ ((0 < l1 -> 0 < orient3 b c e p) /\ (l1 < 0 -> orient3 b c e p < 0)) /\
    ((0 < l2 -> 0 < orient3 c a e p) /\ (l2 < 0 -> orient3 c a e p < 0)) /\ ((0 < l3 -> 0 < orient3 a b e p) /\ (l3 < 0 -> orient3 a b e p < 0)).
Proof.
  intros Hp He Hi. pose proof (o3_swap a b c e) as Sw.
  destruct (crossing_signs a b c p e i) as (l1 & l2 & l3 & D & S1 & S2 & S3); [|exact Hi|].
  { pose proof (qmul_pos _ _ Hp He) as Q. rewrite Sw in Q. lra. }
  exists l1, l2, l3. split; [exact D|]. split; [exact (sgn_iff _ _ _ Hp S1)|split; [exact (sgn_iff _ _ _ Hp S2)|exact (sgn_iff _ _ _ Hp S3)]].
Qed.
Lemma crossing_back a b c p e i : 0 < orient3 b a c p -> 0 < orient3 a b c e ->
  get_line_intersection_type (T3 a b c) p e = Some i ->
  exists l1 l2 l3, describes i l1 l2 l3 /\ ((0 < l1 -> 0 < orient3 c b e p) /\ (l1 < 0 -> orient3 c b e p < 0)) /\
    ((0 < l2 -> 0 < orient3 a c e p) /\ (l2 < 0 -> orient3 a c e p < 0)) /\ ((0 < l3 -> 0 < orient3 b a e p) /\ (l3 < 0 -> orient3 b a e p < 0)).
Proof.
  intros Hp He Hi. pose proof (o3_swap a b c p) as Sw.
  destruct (crossing_signs a b c p e i) as (l1 & l2 & l3 & D & S1 & S2 & S3); [|exact Hi|].
  { pose proof (qmul_pos _ _ Hp He) as Q. rewrite Sw in Q. lra. }
  assert (G : forall w w', w' == - w -> forall l, (forall s, 0 < s * l <-> 0 < s * (w * orient3 a b c p)) -> (0 < l -> 0 < w') /\ (l < 0 -> w' < 0)).
  { intros w w' E l H. apply (sgn_iff l w' (orient3 b a c p) Hp). intro s. rewrite H, Sw, E. split; intro; lra. }
  exists l1, l2, l3. split; [exact D|]. split; [exact (G _ _ (o3_swap _ _ _ _) _ S1)|split; [exact (G _ _ (o3_swap _ _ _ _) _ S2)|exact (G _ _ (o3_swap _ _ _ _) _ S3)]].
Qed.
