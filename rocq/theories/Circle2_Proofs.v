(** Orientation, circles and triangles in the plane, in coordinates. *)
From Coq Require Import List QArith Qabs Lqa Setoid Field Qminmax.
From Verif Require Import Geometry_Model Geometry_Spec Geometry_Proofs GeometryContains_Proofs.
Import ListNotations.
Local Open Scope Q_scope.

Definition orient (a b c : point2) : Q := area2 (T2 a b c).
(** The power of [x] with respect to a circle. *)
Definition pow (o : point2) (k : Q) (x : point2) : Q :=
  x2 x * x2 x + y2 x * y2 x - 2 * (x2 o * x2 x + y2 o * y2 x) + k.
Definition circ (a b c : point2) (o : point2) (k : Q) : Prop :=
  pow o k a == 0 /\ pow o k b == 0 /\ pow o k c == 0.
Definition ins (a b c x : point2) : Prop := 0 < orient a b x /\ 0 < orient b c x /\ 0 < orient c a x.
Definition cls (a b c x : point2) : Prop := 0 <= orient a b x /\ 0 <= orient b c x /\ 0 <= orient c a x.
Definition mix (e : Q) (x y : point2) : point2 := P2 (x2 x + e * (x2 y - x2 x)) (y2 x + e * (y2 y - y2 x)).

Ltac coords := repeat match goal with a : point2 |- _ => destruct a end;
  unfold ins, cls, orient, pow, mix, dist2_2, area2 in *; cbn [t2p1 t2p2 t2p3 x2 y2] in *.

Lemma orient_rot a b c : orient b c a == orient a b c.
Proof. coords. ring. Qed.
Lemma orient_rot2 a b c : orient c a b == orient a b c.
Proof. coords. ring. Qed.
Lemma orient_swap a b c : orient b a c == - orient a b c.
Proof. coords. ring. Qed.
Lemma orient_sum a b c x : orient a b x + orient b c x + orient c a x == orient a b c.
Proof. coords. ring. Qed.
Lemma orient_mix a b e x y : orient a b (mix e x y) == (1 - e) * orient a b x + e * orient a b y.
Proof. coords. ring. Qed.
Lemma orient_same a b : orient a b a == 0 /\ orient a b b == 0 /\ orient a a b == 0.
Proof. coords. repeat split; ring. Qed.

(** An affine function at [x] in terms of its values at the corners, here with the function
    [orient u v] and with the difference of two circles. *)
Lemma orient_bary a b c x u v :
  orient a b c * orient u v x == orient b c x * orient u v a + orient c a x * orient u v b + orient a b x * orient u v c.
Proof. coords. ring. Qed.
Lemma pow_bary o k o' k' a b c x :
  orient a b c * (pow o k x - pow o' k' x) ==
  orient b c x * (pow o k a - pow o' k' a) + orient c a x * (pow o k b - pow o' k' b) + orient a b x * (pow o k c - pow o' k' c).
Proof. coords. ring. Qed.

(** Two circles through [a] and [b]. *)
Lemma pow_ratio o k o' k' a b v w : pow o k a == 0 -> pow o k b == 0 -> pow o' k' a == 0 -> pow o' k' b == 0 ->
  (pow o k v - pow o' k' v) * orient a b w == (pow o k w - pow o' k' w) * orient a b v.
Proof.
  intros A B C D.
  assert (X : (pow o k v - pow o' k' v) * orient a b w - (pow o k w - pow o' k' w) * orient a b v ==
    (pow o k b - pow o' k' b) * orient a v w - (pow o k a - pow o' k' a) * orient b v w).
  { coords. ring. }
  rewrite A, B, C, D in X. assert (Y : (pow o k v - pow o' k' v) * orient a b w - (pow o k w - pow o' k' w) * orient a b v == 0) by (rewrite X; ring).
  lra.
Qed.

Lemma sq_nonneg (x : Q) : 0 <= x * x.
Proof. nra. Qed.
Lemma sq_pos (x : Q) : ~ x == 0 -> 0 < x * x.
Proof. intro H. destruct (Q_dec x 0) as [[L|L]|L]; [nra|nra|contradiction]. Qed.
Lemma dist2_nonneg a b : 0 <= dist2_2 a b.
Proof. unfold dist2_2. pose proof (sq_nonneg (x2 a - x2 b)). pose proof (sq_nonneg (y2 a - y2 b)). lra. Qed.
Lemma dist2_sym a b : dist2_2 a b == dist2_2 b a.
Proof. coords. ring. Qed.
Lemma dist2_zero a b : dist2_2 a b == 0 -> x2 a == x2 b /\ y2 a == y2 b.
Proof.
  unfold dist2_2. intro H. pose proof (sq_nonneg (x2 a - x2 b)) as H1. pose proof (sq_nonneg (y2 a - y2 b)) as H2.
  assert (E1 : (x2 a - x2 b) * (x2 a - x2 b) == 0) by lra. assert (E2 : (y2 a - y2 b) * (y2 a - y2 b) == 0) by lra.
  apply Qmult_integral in E1. apply Qmult_integral in E2. split; [destruct E1; lra|destruct E2; lra].
Qed.
Lemma orient_pos_dist a b c : 0 < orient a b c -> 0 < dist2_2 a b.
Proof.
  intro H. destruct (Q_dec (dist2_2 a b) 0) as [[L|L]|L]; [pose proof (dist2_nonneg a b); lra|exact L|].
  apply dist2_zero in L. destruct L as [E1 E2]. exfalso. coords. rewrite E1, E2 in H.
  match type of H with 0 < ?e => assert (Z : e == 0) by ring end. lra.
Qed.

(** The power in terms of the distances of the corners. *)
Lemma pow_corners a b c o k x : circ a b c o k ->
  orient a b c * orient a b c * pow o k x ==
  - (orient b c x * orient c a x * dist2_2 a b + orient c a x * orient a b x * dist2_2 b c + orient a b x * orient b c x * dist2_2 c a).
Proof.
  intros [A [B C]].
  assert (X : orient a b c * orient a b c * pow o k x +
    (orient b c x * orient c a x * dist2_2 a b + orient c a x * orient a b x * dist2_2 b c + orient a b x * orient b c x * dist2_2 c a) ==
    orient a b c * (orient b c x * pow o k a + orient c a x * pow o k b + orient a b x * pow o k c)).
  { coords. ring. }
  rewrite A, B, C in X. lra.
Qed.

Lemma ins_pow a b c o k x : 0 < orient a b c -> circ a b c o k -> ins a b c x -> pow o k x < 0.
Proof.
  intros H C [I1 [I2 I3]]. pose proof (pow_corners a b c o k x C) as E.
  pose proof (orient_pos_dist a b c H) as D1.
  pose proof (dist2_nonneg b c) as D2. pose proof (dist2_nonneg c a) as D3.
  assert (P1 : 0 < orient b c x * orient c a x * dist2_2 a b) by (apply Qmult_lt_0_compat; [apply Qmult_lt_0_compat; assumption|exact D1]).
  assert (P2 : 0 <= orient c a x * orient a b x * dist2_2 b c) by (apply Qmult_le_0_compat; [apply Qmult_le_0_compat; apply Qlt_le_weak; assumption|exact D2]).
  assert (P3 : 0 <= orient a b x * orient b c x * dist2_2 c a) by (apply Qmult_le_0_compat; [apply Qmult_le_0_compat; apply Qlt_le_weak; assumption|exact D3]).
  assert (S : 0 < orient a b c * orient a b c) by (apply Qmult_lt_0_compat; assumption).
  destruct (Qlt_le_dec (pow o k x) 0) as [L|L]; [exact L|].
  pose proof (Qmult_le_0_compat _ _ (Qlt_le_weak _ _ S) L). lra.
Qed.

(** The sum of two vectors with nonnegative weights. *)
Lemma weights s t d e f (a b c : point2) : 0 <= s -> 0 <= t ->
  d == dist2_2 a b -> e == dist2_2 b c -> f == dist2_2 c a -> s * t * f <= (s + t) * (s * d + t * e).
Proof.
  intros Hs Ht -> -> ->.
  assert (X : (s + t) * (s * dist2_2 a b + t * dist2_2 b c) - s * t * dist2_2 c a ==
    (s * (x2 a - x2 b) + t * (x2 c - x2 b)) * (s * (x2 a - x2 b) + t * (x2 c - x2 b)) +
    (s * (y2 a - y2 b) + t * (y2 c - y2 b)) * (s * (y2 a - y2 b) + t * (y2 c - y2 b))).
  { coords. ring. }
  pose proof (sq_nonneg (s * (x2 a - x2 b) + t * (x2 c - x2 b))). pose proof (sq_nonneg (s * (y2 a - y2 b) + t * (y2 c - y2 b))). lra.
Qed.

(** If the point across the edge [ab] is inside the circumcircle, the quadrilateral is convex. *)
Lemma flip_convex p a b q o k : 0 < orient p a b -> 0 < orient b a q -> circ p a b o k -> pow o k q < 0 ->
  0 < orient p a q /\ 0 < orient p q b.
Proof.
  intros H Hq C Hp. pose proof (pow_corners p a b o k q C) as E.
  assert (S : 0 < orient p a b * orient p a b) by (apply Qmult_lt_0_compat; assumption).
  assert (N : 0 < - (orient p a b * orient p a b * pow o k q)).
  { assert (0 < orient p a b * orient p a b * (- pow o k q)) by (apply Qmult_lt_0_compat; lra). lra. }
  rewrite E in N. clear E.
  pose proof (orient_sum p a b q) as Sum. pose proof (orient_swap a b q) as Sw.
  assert (Ebp : orient b p q == orient p q b) by (rewrite (orient_rot b p q); reflexivity).
  rewrite <- Ebp. remember (orient p a q) as u. remember (orient b p q) as v. remember (orient a b q) as w.
  assert (Hw : w < 0) by lra.
  pose proof (dist2_nonneg p a) as D1. pose proof (dist2_nonneg a b) as D2. pose proof (dist2_nonneg b p) as D3.
  (* weights: p has w, a has v, b has u *)
  split.
  - destruct (Qlt_le_dec 0 u) as [L|L]; [exact L|]. exfalso.
    pose proof (weights (- w) (- u) (dist2_2 p a) (dist2_2 a b) (dist2_2 b p) p a b ltac:(lra) ltac:(lra) ltac:(reflexivity) ltac:(reflexivity) ltac:(reflexivity)) as W.
    assert (V : v == orient p a b - w - u) by lra.
    assert (K : 0 <= (v + w + u) * ((- w) * dist2_2 p a + (- u) * dist2_2 a b)).
    { apply Qmult_le_0_compat; [lra|]. pose proof (Qmult_le_0_compat (- w) _ ltac:(lra) D1). pose proof (Qmult_le_0_compat (- u) _ ltac:(lra) D2). lra. }
    assert (Z : (w * v * dist2_2 p a + v * u * dist2_2 a b + u * w * dist2_2 b p) ==
      - ((v + w + u) * ((- w) * dist2_2 p a + (- u) * dist2_2 a b)) - ((- w + - u) * ((- w) * dist2_2 p a + (- u) * dist2_2 a b) - (- w) * (- u) * dist2_2 b p)) by ring.
    lra.
  - destruct (Qlt_le_dec 0 v) as [L|L]; [exact L|]. exfalso.
    pose proof (weights (- w) (- v) (dist2_2 b p) (dist2_2 a b) (dist2_2 p a) p b a ltac:(lra) ltac:(lra)
      ltac:(apply dist2_sym) ltac:(apply dist2_sym) ltac:(apply dist2_sym)) as W.
    assert (V : u == orient p a b - w - v) by lra.
    assert (K : 0 <= (u + w + v) * ((- w) * dist2_2 b p + (- v) * dist2_2 a b)).
    { apply Qmult_le_0_compat; [lra|]. pose proof (Qmult_le_0_compat (- w) _ ltac:(lra) D3). pose proof (Qmult_le_0_compat (- v) _ ltac:(lra) D2). lra. }
    assert (Z : (w * v * dist2_2 p a + v * u * dist2_2 a b + u * w * dist2_2 b p) ==
      - ((u + w + v) * ((- w) * dist2_2 b p + (- v) * dist2_2 a b)) - ((- w + - v) * ((- w) * dist2_2 b p + (- v) * dist2_2 a b) - (- w) * (- v) * dist2_2 p a)) by ring.
    lra.
Qed.

(** Beyond an edge the circle of the neighbour has the smaller power, if the neighbour's corner
    is outside. *)
Lemma pow_beyond a b c q o k o' k' v : 0 < orient b a q -> circ a b c o k -> circ b a q o' k' -> 0 < pow o k q ->
  orient a b v < 0 -> pow o' k' v < pow o k v.
Proof.
  intros Hq [A [B C]] [B' [A' Q']] P V.
  pose proof (pow_ratio o k o' k' a b v q A B A' B') as R. rewrite Q' in R.
  pose proof (orient_swap a b q) as Sw.
  assert (L : (pow o k v - pow o' k' v) * orient b a q == pow o k q * - orient a b v).
  { assert (X : (pow o k v - pow o' k' v) * orient b a q == - ((pow o k v - pow o' k' v) * orient a b q)) by (rewrite Sw; ring).
    rewrite X, R. ring. }
  assert (Pos : 0 < (pow o k v - pow o' k' v) * orient b a q) by (rewrite L; apply Qmult_lt_0_compat; lra).
  destruct (Qlt_le_dec (pow o' k' v) (pow o k v)) as [Y|Y]; [exact Y|].
  assert (0 <= (pow o' k' v - pow o k v) * orient b a q) by (apply Qmult_le_0_compat; lra). lra.
Qed.

(** The test across an edge does not depend on the side it is made from. *)
Lemma pow_symm a b c q o k o' k' : 0 < orient a b c -> 0 < orient b a q -> circ a b c o k -> circ b a q o' k' ->
  (0 < pow o k q <-> 0 < pow o' k' c) /\ (pow o k q < 0 <-> pow o' k' c < 0).
Proof.
  intros Hc Hq [A [B C]] [B' [A' Q']].
  pose proof (pow_ratio o k o' k' a b c q A B A' B') as R. rewrite C, Q' in R. pose proof (orient_swap a b q) as Sw.
  assert (E : pow o' k' c * orient b a q == pow o k q * orient a b c) by (rewrite Sw; lra).
  split; split; intro H.
  - assert (0 < pow o' k' c * orient b a q) by (rewrite E; apply Qmult_lt_0_compat; lra).
    destruct (Qlt_le_dec 0 (pow o' k' c)) as [Y|Y]; [exact Y|].
    assert (0 <= (- pow o' k' c) * orient b a q) by (apply Qmult_le_0_compat; lra). lra.
  - assert (0 < pow o k q * orient a b c) by (rewrite <- E; apply Qmult_lt_0_compat; lra).
    destruct (Qlt_le_dec 0 (pow o k q)) as [Y|Y]; [exact Y|].
    assert (0 <= (- pow o k q) * orient a b c) by (apply Qmult_le_0_compat; lra). lra.
  - assert (0 < (- pow o k q) * orient a b c) by (apply Qmult_lt_0_compat; lra).
    destruct (Qlt_le_dec (pow o' k' c) 0) as [Y|Y]; [exact Y|].
    assert (0 <= pow o' k' c * orient b a q) by (apply Qmult_le_0_compat; lra). lra.
  - assert (0 < (- pow o' k' c) * orient b a q) by (apply Qmult_lt_0_compat; lra).
    destruct (Qlt_le_dec (pow o k q) 0) as [Y|Y]; [exact Y|].
    assert (0 <= pow o k q * orient a b c) by (apply Qmult_le_0_compat; lra). lra.
Qed.

(** A circle through [a] and a point [p] inside a circle through [a], inside this circle
    otherwise. *)
Lemma inner_circle a p o k : pow o k a == 0 -> pow o k p < 0 ->
  exists o' k', pow o' k' a == 0 /\ pow o' k' p == 0 /\
    forall v, 0 <= pow o k v -> 0 < dist2_2 v a -> 0 < pow o' k' v.
Proof.
  intros A P.
  assert (D : 0 < dist2_2 p a).
  { destruct (Q_dec (dist2_2 p a) 0) as [[L|L]|L]; [pose proof (dist2_nonneg p a); lra|exact L|].
    apply dist2_zero in L. destruct L as [E1 E2]. exfalso. unfold pow in A, P. rewrite E1, E2 in P. lra. }
  assert (Den : 0 < dist2_2 p a - pow o k p) by lra.
  set (m := dist2_2 p a / (dist2_2 p a - pow o k p)).
  assert (Hm : m * (dist2_2 p a - pow o k p) == dist2_2 p a) by (unfold m; field; lra).
  assert (M0 : 0 < m).
  { destruct (Qlt_le_dec 0 m) as [L|L]; [exact L|].
    assert (0 <= (- m) * (dist2_2 p a - pow o k p)) by (apply Qmult_le_0_compat; lra). lra. }
  assert (M1 : m < 1).
  { destruct (Qlt_le_dec m 1) as [L|L]; [exact L|].
    assert (0 <= (m - 1) * (dist2_2 p a - pow o k p)) by (apply Qmult_le_0_compat; lra). lra. }
  exists (P2 ((1 - m) * x2 a + m * x2 o) ((1 - m) * y2 a + m * y2 o)),
    ((1 - m) * (x2 a * x2 a + y2 a * y2 a) + m * k).
  assert (F : forall v, pow (P2 ((1 - m) * x2 a + m * x2 o) ((1 - m) * y2 a + m * y2 o)) ((1 - m) * (x2 a * x2 a + y2 a * y2 a) + m * k) v ==
    (1 - m) * dist2_2 v a + m * pow o k v).
  { intro v. unfold pow, dist2_2. cbn [x2 y2]. ring. }
  split; [|split].
  - rewrite F, A. unfold dist2_2. ring.
  - rewrite F. lra.
  - intros v V1 V2. rewrite F.
    assert (0 < (1 - m) * dist2_2 v a) by (apply Qmult_lt_0_compat; lra).
    assert (0 <= m * pow o k v) by (apply Qmult_le_0_compat; lra). lra.
Qed.

(** If [b] and [c] are on both sides of the edge [pa] and outside of some circle through [p] and
    [a], the edge passes the test. *)
Lemma witness_circle p a b c o k o' k' : 0 < orient p a b -> 0 < orient a p c -> circ p a b o k ->
  pow o' k' p == 0 -> pow o' k' a == 0 -> 0 < pow o' k' b -> 0 < pow o' k' c -> 0 < pow o k c.
Proof.
  intros Hb Hc [P [A B]] P' A' B' C'.
  pose proof (pow_ratio o k o' k' p a c b P A P' A') as R. rewrite B in R. pose proof (orient_swap p a c) as Sw.
  assert (L : (pow o k c - pow o' k' c) * orient p a b == pow o' k' b * orient a p c) by (rewrite Sw; lra).
  assert (0 < pow o' k' b * orient a p c) by (apply Qmult_lt_0_compat; lra).
  destruct (Qlt_le_dec 0 (pow o k c)) as [Y|Y]; [exact Y|].
  assert (0 <= (pow o' k' c - pow o k c) * orient p a b) by (apply Qmult_le_0_compat; lra). lra.
Qed.

(** Existence and use of the circle. *)
Lemma circ_of_center a b c o : circumscribed2 (T2 a b c) o ->
  circ a b c o (2 * (x2 o * x2 a + y2 o * y2 a) - (x2 a * x2 a + y2 a * y2 a)).
Proof.
  intros [H1 H2]. unfold dist2_2 in H1, H2. cbn [t2p1 t2p2 t2p3] in H1, H2. unfold circ, pow. repeat split; lra.
Qed.
Lemma circ_center a b c o k : circ a b c o k -> circumscribed2 (T2 a b c) o.
Proof.
  intros [A [B C]]. unfold pow in A, B, C. split; unfold dist2_2; cbn [t2p1 t2p2 t2p3]; lra.
Qed.
Lemma circ_dist a b c o k x : circ a b c o k -> dist2_2 o x - dist2_2 o a == pow o k x.
Proof. intros [A _]. unfold pow in *. unfold dist2_2. lra. Qed.
Lemma circ_exists a b c : 0 < orient a b c -> exists o k, circ a b c o k.
Proof.
  intro H. do 2 eexists. apply circ_of_center. apply circumcenter2_ok. cbn. unfold orient in H. lra.
Qed.
Lemma circ_rot a b c o k : circ a b c o k -> circ b c a o k.
Proof. unfold circ. tauto. Qed.
Lemma circ_unique a b c o k o' k' x : 0 < orient a b c -> circ a b c o k -> circ a b c o' k' -> pow o k x == pow o' k' x.
Proof.
  intros H [A [B C]] [A' [B' C']]. pose proof (pow_bary o k o' k' a b c x) as E.
  rewrite A, B, C, A', B', C' in E.
  assert (Z : orient a b c * (pow o k x - pow o' k' x) == 0) by (rewrite E; ring).
  apply Qmult_integral in Z. destruct Z as [Z|Z]; lra.
Qed.
Lemma circle2_test a b c o k x : 0 < orient a b c -> circ a b c o k ->
  (circumcircle_contains2 (T2 a b c) x = Some true -> pow o k x < 0) /\
  (circumcircle_contains2 (T2 a b c) x = Some false -> 0 < pow o k x) /\
  (~ pow o k x == 0 -> circumcircle_contains2 (T2 a b c) x <> None).
Proof.
  intros H C. destruct (circumcircle2 (T2 a b c) o x H (circ_center _ _ _ _ _ C)) as [T1 [T2' T3]].
  pose proof (circ_dist a b c o k x C) as E. cbn [t2p1] in *. split; [|split].
  - intro X. apply T1 in X. lra.
  - intro X. apply T2' in X. lra.
  - intros X Y. apply T3 in Y. apply X. lra.
Qed.

(** Strictly inside. *)
Lemma inside2_test a b c x : 0 < orient a b c ->
  (contains2 (T2 a b c) x = Some true <-> ins a b c x).
Proof.
  intro H. assert (H0 : ~ area2 (T2 a b c) == 0) by (unfold orient in H; lra).
  destruct (contains2_ok (T2 a b c) x H0) as [T1 _]. rewrite T1. split.
  - intros [l1 [l2 [l3 [[M1 [M2 M3]] [L1 [L2 L3]]]]]]. cbn [t2p1 t2p2 t2p3] in *.
    assert (E1 : orient a b x == l3 * orient a b c) by (coords; rewrite M2, M3; assert (l1 == 1 - l2 - l3) as -> by lra; ring).
    assert (E2 : orient b c x == l1 * orient a b c) by (coords; rewrite M2, M3; assert (l1 == 1 - l2 - l3) as -> by lra; ring).
    assert (E3 : orient c a x == l2 * orient a b c) by (coords; rewrite M2, M3; assert (l1 == 1 - l2 - l3) as -> by lra; ring).
    unfold ins. rewrite E1, E2, E3. repeat split; apply Qmult_lt_0_compat; assumption.
  - intros [I1 [I2 I3]]. exists (orient b c x / orient a b c), (orient c a x / orient a b c), (orient a b x / orient a b c).
    pose proof (orient_sum a b c x) as S. split; [split; [|split]|split; [|split]].
    + rewrite <- S. field. lra.
    + cbn [t2p1 t2p2 t2p3]. assert (E : x2 x * orient a b c == orient b c x * x2 a + orient c a x * x2 b + orient a b x * x2 c) by (coords; ring).
      apply (Qmult_inj_r _ _ (orient a b c)); [lra|]. rewrite E. field. lra.
    + cbn [t2p1 t2p2 t2p3]. assert (E : y2 x * orient a b c == orient b c x * y2 a + orient c a x * y2 b + orient a b x * y2 c) by (coords; ring).
      apply (Qmult_inj_r _ _ (orient a b c)); [lra|]. rewrite E. field. lra.
    + apply Qlt_shift_div_l; [exact H|lra].
    + apply Qlt_shift_div_l; [exact H|lra].
    + apply Qlt_shift_div_l; [exact H|lra].
Qed.
