(** Proofs about the geometric computations. *)
From Coq Require Import List Arith Lia QArith Qabs Qfield Lqa Bool.
Import ListNotations.
From Verif Require Import LinSolve_Model LinSolve_Spec LinSolve_Proofs Geometry_Model Geometry_Spec.
Local Open Scope Q_scope.

(** ** Signs *)

Lemma sign_pos v : sign_of v = Positive <-> 0 < v.
Proof.
  unfold sign_of. destruct (Qcompare_spec v 0) as [E|L|G]; split; intro H; try discriminate; try reflexivity; try lra; try assumption.
Qed.
Lemma sign_neg v : sign_of v = Negative <-> v < 0.
Proof.
  unfold sign_of. destruct (Qcompare_spec v 0) as [E|L|G]; split; intro H; try discriminate; try reflexivity; try lra; try assumption.
Qed.
Lemma sign_zero v : sign_of v = Zero <-> v == 0.
Proof.
  unfold sign_of. destruct (Qcompare_spec v 0) as [E|L|G]; split; intro H; try discriminate; try reflexivity; try lra; try assumption.
Qed.

Lemma sign_cases v : (sign_of v = Positive /\ 0 < v) \/ (sign_of v = Negative /\ v < 0) \/ (sign_of v = Zero /\ v == 0).
Proof.
  destruct (sign_of v) eqn:E; [left|right; left|right; right]; (split; [reflexivity|]);
    [apply sign_pos|apply sign_neg|apply sign_zero]; exact E.
Qed.

Lemma sign_mul_spec v w : sign_mul (sign_of v) (sign_of w) = sign_of (v * w).
Proof.
  destruct (sign_cases v) as [[E H]|[[E H]|[E H]]]; destruct (sign_cases w) as [[F G]|[[F G]|[F G]]]; rewrite E, F; cbn [sign_mul]; symmetry;
    try (apply sign_pos; nra); try (apply sign_neg; nra); apply sign_zero; rewrite ?H, ?G; ring.
Qed.

(** The test on a sign with a panic at zero. *)
Lemma negative_test v : (option_map is_negative (panic_if_zero (sign_of v)) = Some true <-> v < 0)
  /\ (option_map is_negative (panic_if_zero (sign_of v)) = Some false <-> 0 < v)
  /\ (option_map is_negative (panic_if_zero (sign_of v)) = None <-> v == 0).
Proof.
  destruct (sign_cases v) as [[E H]|[[E H]|[E H]]]; rewrite E; cbn; repeat split; intro; try discriminate; try reflexivity; try assumption; exfalso; lra.
Qed.
Lemma positive_test v : (option_map is_positive (panic_if_zero (sign_of v)) = Some true <-> 0 < v)
  /\ (option_map is_positive (panic_if_zero (sign_of v)) = Some false <-> v < 0)
  /\ (option_map is_positive (panic_if_zero (sign_of v)) = None <-> v == 0).
Proof.
  destruct (sign_cases v) as [[E H]|[[E H]|[E H]]]; rewrite E; cbn; repeat split; intro; try discriminate; try reflexivity; try assumption; exfalso; lra.
Qed.

(** A product with a positive number. *)
Lemma scaled_sign v V w : 0 < V -> v == V * w -> (v < 0 <-> w < 0) /\ (0 < v <-> 0 < w) /\ (v == 0 <-> w == 0).
Proof.
  intros HV E. rewrite E. repeat split; intro H.
  - apply Qnot_le_lt. intro F. assert (0 <= V * w) by (apply Qmult_le_0_compat; lra). lra.
  - assert (0 < V * - w) by (apply Qmult_lt_0_compat; lra). lra.
  - apply Qnot_le_lt. intro F. assert (0 <= V * - w) by (apply Qmult_le_0_compat; lra). lra.
  - apply Qmult_lt_0_compat; assumption.
  - apply Qmult_integral in H as [H|H]; [lra|exact H].
  - rewrite H. ring.
Qed.

Lemma Qsq v : v ^ 2 == v * v.
Proof. cbn. reflexivity. Qed.

(** ** The circumcircle in two dimensions *)

Theorem circumcircle2 t o d : 0 < area2 t -> circumscribed2 t o ->
  (circumcircle_contains2 t d = Some true <-> dist2_2 o d < dist2_2 o (t2p1 t))
  /\ (circumcircle_contains2 t d = Some false <-> dist2_2 o (t2p1 t) < dist2_2 o d)
  /\ (circumcircle_contains2 t d = None <-> dist2_2 o d == dist2_2 o (t2p1 t)).
Proof.
  destruct t as [[ax ay] [bx by_] [cx cy]], o as [ox oy], d as [dx dy].
  unfold area2, circumscribed2, circumcircle_contains2, dist2_2. cbn [t2p1 t2p2 t2p3 x2 y2].
  intros HA [H1 H2].
  set (v := determinant3x3 _ _ _).
  assert (E : v == ((bx - ax) * (cy - ay) - (by_ - ay) * (cx - ax)) *
     (((ox - dx) * (ox - dx) + (oy - dy) * (oy - dy)) - ((ox - ax) * (ox - ax) + (oy - ay) * (oy - ay)))).
  { transitivity (((bx - ax) * (cy - ay) - (by_ - ay) * (cx - ax)) *
     (((ox - dx) * (ox - dx) + (oy - dy) * (oy - dy)) - ((ox - ax) * (ox - ax) + (oy - ay) * (oy - ay)))
     + (((ox - bx) * (ox - bx) + (oy - by_) * (oy - by_)) - ((ox - ax) * (ox - ax) + (oy - ay) * (oy - ay))) * ((cx - ax) * (dy - ay) - (cy - ay) * (dx - ax))
     - (((ox - cx) * (ox - cx) + (oy - cy) * (oy - cy)) - ((ox - ax) * (ox - ax) + (oy - ay) * (oy - ay))) * ((bx - ax) * (dy - ay) - (by_ - ay) * (dx - ax))).
    - unfold v, determinant3x3. rewrite !Qsq. ring.
    - rewrite H1, H2. ring. }
  destruct (scaled_sign v _ _ HA E) as (S1 & S2 & S3).
  destruct (negative_test v) as (N1 & N2 & N3).
  rewrite N1, N2, N3, S1, S2, S3. repeat split; intro; lra.
Qed.

Theorem circumcenter2_ok t : ~ area2 t == 0 -> circumscribed2 t (circumcenter2 t).
Proof.
  destruct t as [[ax ay] [bx by_] [cx cy]].
  unfold area2, circumscribed2, circumcenter2, dist2_2. cbn [t2p1 t2p2 t2p3 x2 y2]. intro HA.
  assert (HD : ~ 2 * (ax * (by_ - cy) + bx * (cy - ay) + cx * (ay - by_)) == 0).
  { intro F. apply HA. lra. }
  rewrite !Qsq. split; field; lra.
Qed.

(** Any two centres are the same point. *)
Lemma cramer2 u1 u2 v1 v2 p q : ~ u1 * v2 - u2 * v1 == 0 -> u1 * p + u2 * q == 0 -> v1 * p + v2 * q == 0 -> p == 0 /\ q == 0.
Proof.
  intros HD H1 H2.
  assert (A : (u1 * v2 - u2 * v1) * p == 0).
  { transitivity (v2 * (u1 * p + u2 * q) - u2 * (v1 * p + v2 * q)); [ring|]. rewrite H1, H2. ring. }
  assert (B : (u1 * v2 - u2 * v1) * q == 0).
  { transitivity (u1 * (v1 * p + v2 * q) - v1 * (u1 * p + u2 * q)); [ring|]. rewrite H1, H2. ring. }
  split; [apply Qmult_integral in A as [A|A]; [contradiction|exact A]|apply Qmult_integral in B as [B|B]; [contradiction|exact B]].
Qed.

Theorem circumcenter2_unique t o : ~ area2 t == 0 -> circumscribed2 t o ->
  x2 o == x2 (circumcenter2 t) /\ y2 o == y2 (circumcenter2 t).
Proof.
  intros HA HO. assert (HC := circumcenter2_ok t HA). destruct (circumcenter2 t) as [px py]. destruct o as [qx qy].
  destruct t as [[ax ay] [bx by_] [cx cy]]. unfold area2, circumscribed2, dist2_2 in *. cbn [t2p1 t2p2 t2p3 x2 y2] in *.
  destruct HO as [O1 O2], HC as [C1 C2].
  assert (R : qx - px == 0 /\ qy - py == 0); [|destruct R as [R1 R2]; split; lra].
  apply (cramer2 (bx - ax) (by_ - ay) (cx - ax) (cy - ay)).
  - exact HA.
  - nra.
  - nra.
Qed.

(** ** The circumsphere *)

(** Six times the volume from coordinates. *)
Definition vol (ax ay az bx by_ bz cx cy cz dx dy dz : Q) : Q :=
  triple (bx - ax) (by_ - ay) (bz - az) (cx - ax) (cy - ay) (cz - az) (dx - ax) (dy - ay) (dz - az).

Definition d2 (ox oy oz px py pz : Q) : Q :=
  (ox - px) * (ox - px) + (oy - py) * (oy - py) + (oz - pz) * (oz - pz).

Lemma det5_expand ax ay az bx by_ bz cx cy cz dx dy dz ex ey ez ox oy oz :
  determinant5x5 (1, (ax, (ay, az, ax ^ 2 + ay ^ 2 + az ^ 2))) (1, (bx, (by_, bz, bx ^ 2 + by_ ^ 2 + bz ^ 2)))
                 (1, (cx, (cy, cz, cx ^ 2 + cy ^ 2 + cz ^ 2))) (1, (dx, (dy, dz, dx ^ 2 + dy ^ 2 + dz ^ 2)))
                 (1, (ex, (ey, ez, ex ^ 2 + ey ^ 2 + ez ^ 2)))
  == d2 ox oy oz ex ey ez * vol ax ay az bx by_ bz cx cy cz dx dy dz
     - d2 ox oy oz dx dy dz * vol ax ay az bx by_ bz cx cy cz ex ey ez
     + d2 ox oy oz cx cy cz * vol ax ay az bx by_ bz dx dy dz ex ey ez
     - d2 ox oy oz bx by_ bz * vol ax ay az cx cy cz dx dy dz ex ey ez
     + d2 ox oy oz ax ay az * vol bx by_ bz cx cy cz dx dy dz ex ey ez.
Proof.
  unfold determinant5x5, determinant4x4, determinant3x3, d2, vol, triple. cbn [fst snd]. rewrite !Qsq. ring.
Qed.

Lemma vol_cocycle ax ay az bx by_ bz cx cy cz dx dy dz ex ey ez :
  vol ax ay az bx by_ bz cx cy cz dx dy dz
  == vol ax ay az bx by_ bz cx cy cz ex ey ez - vol ax ay az bx by_ bz dx dy dz ex ey ez
     + vol ax ay az cx cy cz dx dy dz ex ey ez - vol bx by_ bz cx cy cz dx dy dz ex ey ez.
Proof. unfold vol, triple. ring. Qed.

Lemma in_sphere_value t o e : circumscribed3 t o ->
  determinant5x5 (1, (x3 (ttp1 t), (y3 (ttp1 t), z3 (ttp1 t), norm2 (ttp1 t))))
                 (1, (x3 (ttp2 t), (y3 (ttp2 t), z3 (ttp2 t), norm2 (ttp2 t))))
                 (1, (x3 (ttp3 t), (y3 (ttp3 t), z3 (ttp3 t), norm2 (ttp3 t))))
                 (1, (x3 (ttp4 t), (y3 (ttp4 t), z3 (ttp4 t), norm2 (ttp4 t))))
                 (1, (x3 e, (y3 e, z3 e, norm2 e)))
  == volume6 t * (dist2_3 o e - dist2_3 o (ttp1 t)).
Proof.
  destruct t as [[ax ay az] [bx by_ bz] [cx cy cz] [dx dy dz]], o as [ox oy oz], e as [ex ey ez].
  unfold circumscribed3, dist2_3, norm2, volume6. cbn [ttp1 ttp2 ttp3 ttp4 x3 y3 z3].
  fold (d2 ox oy oz ax ay az) (d2 ox oy oz bx by_ bz) (d2 ox oy oz cx cy cz) (d2 ox oy oz dx dy dz) (d2 ox oy oz ex ey ez).
  fold (vol ax ay az bx by_ bz cx cy cz dx dy dz).
  intros (H1 & H2 & H3).
  rewrite (det5_expand ax ay az bx by_ bz cx cy cz dx dy dz ex ey ez ox oy oz), H1, H2, H3.
  rewrite (vol_cocycle ax ay az bx by_ bz cx cy cz dx dy dz ex ey ez). ring.
Qed.

Theorem circumsphere_exact t o e : 0 < volume6 t -> circumscribed3 t o ->
  (circumcircle_contains3_exact t e = Some true <-> dist2_3 o e < dist2_3 o (ttp1 t))
  /\ (circumcircle_contains3_exact t e = Some false <-> dist2_3 o (ttp1 t) < dist2_3 o e)
  /\ (circumcircle_contains3_exact t e = None <-> dist2_3 o e == dist2_3 o (ttp1 t)).
Proof.
  intros HV HO. unfold circumcircle_contains3_exact. cbv zeta beta.
  set (v := determinant5x5 _ _ _ _ _). assert (E : v == volume6 t * (dist2_3 o e - dist2_3 o (ttp1 t))) by (apply in_sphere_value; exact HO).
  destruct (scaled_sign v _ _ HV E) as (S1 & S2 & S3).
  destruct (negative_test v) as (N1 & N2 & N3).
  rewrite N1, N2, N3, S1, S2, S3. repeat split; intro; lra.
Qed.

(** The value the branch in [f64] computes. *)
Lemma float_value ax ay az bx by_ bz cx cy cz dx dy dz :
  let ab := ax * by_ - bx * ay in let bc := bx * cy - cx * by_ in let cd := cx * dy - dx * cy in
  let da := dx * ay - ax * dy in let ac := ax * cy - cx * ay in let bd := bx * dy - dx * by_ in
  let abc := az * bc - bz * ac + cz * ab in
  let bcd := bz * cd - cz * bd + dz * bc in
  let cda := cz * da + dz * ac + az * cd in
  let dab := dz * ab + az * bd + bz * da in
  let a2 := ax * ax + ay * ay + az * az in
  let b2 := bx * bx + by_ * by_ + bz * bz in
  let c2 := cx * cx + cy * cy + cz * cz in
  let d2 := dx * dx + dy * dy + dz * dz in
  (c2 * dab - d2 * abc) + (a2 * bcd - b2 * cda)
  == - determinant5x5 (1, (ax, (ay, az, ax ^ 2 + ay ^ 2 + az ^ 2))) (1, (bx, (by_, bz, bx ^ 2 + by_ ^ 2 + bz ^ 2)))
                 (1, (cx, (cy, cz, cx ^ 2 + cy ^ 2 + cz ^ 2))) (1, (dx, (dy, dz, dx ^ 2 + dy ^ 2 + dz ^ 2)))
                 (1, (0, (0, 0, 0))).
Proof.
  cbv zeta. unfold determinant5x5, determinant4x4, determinant3x3. cbn [fst snd]. rewrite !Qsq. ring.
Qed.

Definition shift (p e : point3) : point3 := sub3 p e.

Lemma det5_shift ax ay az bx by_ bz cx cy cz dx dy dz ex ey ez :
  determinant5x5 (1, (ax - ex, (ay - ey, az - ez, (ax - ex) ^ 2 + (ay - ey) ^ 2 + (az - ez) ^ 2)))
                 (1, (bx - ex, (by_ - ey, bz - ez, (bx - ex) ^ 2 + (by_ - ey) ^ 2 + (bz - ez) ^ 2)))
                 (1, (cx - ex, (cy - ey, cz - ez, (cx - ex) ^ 2 + (cy - ey) ^ 2 + (cz - ez) ^ 2)))
                 (1, (dx - ex, (dy - ey, dz - ez, (dx - ex) ^ 2 + (dy - ey) ^ 2 + (dz - ez) ^ 2)))
                 (1, (0, (0, 0, 0)))
  == determinant5x5 (1, (ax, (ay, az, ax ^ 2 + ay ^ 2 + az ^ 2))) (1, (bx, (by_, bz, bx ^ 2 + by_ ^ 2 + bz ^ 2)))
                 (1, (cx, (cy, cz, cx ^ 2 + cy ^ 2 + cz ^ 2))) (1, (dx, (dy, dz, dx ^ 2 + dy ^ 2 + dz ^ 2)))
                 (1, (ex, (ey, ez, ex ^ 2 + ey ^ 2 + ez ^ 2))).
Proof.
  rewrite (det5_expand ax ay az bx by_ bz cx cy cz dx dy dz ex ey ez ex ey ez).
  unfold determinant5x5, determinant4x4, determinant3x3, d2, vol, triple. cbn [fst snd]. rewrite !Qsq. ring.
Qed.

Theorem circumsphere_float t o e b : 0 < volume6 t -> circumscribed3 t o ->
  circumcircle_contains3_float t e = Some b -> (b = true <-> dist2_3 o e < dist2_3 o (ttp1 t)).
Proof.
  intros HV HO. assert (E := in_sphere_value t o e HO).
  destruct t as [[ax ay az] [bx by_ bz] [cx cy cz] [dx dy dz]], o as [ox oy oz], e as [ex ey ez].
  unfold circumcircle_contains3_float. cbn [ttp1 ttp2 ttp3 ttp4 x3 y3 z3] in *. cbv zeta.
  set (bound := (1 # 100000000000000) * _). clearbody bound.
  match goal with |- (if check ?w _ then _ else _) = _ -> _ => set (v := w) end.
  assert (EV : v == - (volume6 (TT (P3 ax ay az) (P3 bx by_ bz) (P3 cx cy cz) (P3 dx dy dz)) *
     (dist2_3 (P3 ox oy oz) (P3 ex ey ez) - dist2_3 (P3 ox oy oz) (P3 ax ay az)))).
  { rewrite <- E. unfold norm2. cbn [x3 y3 z3]. rewrite <- det5_shift.
    unfold v. apply (float_value (ax - ex) (ay - ey) (az - ez) (bx - ex) (by_ - ey) (bz - ez) (cx - ex) (cy - ey) (cz - ez) (dx - ex) (dy - ey) (dz - ez)). }
  clearbody v. destruct (check v bound); [|discriminate]. intro H. injection H as <-.
  set (V := volume6 _) in *. set (w := dist2_3 _ _ - dist2_3 _ _) in *.
  assert (EV' : - v == V * w) by (rewrite EV; ring).
  destruct (scaled_sign (- v) V w HV EV') as (S1 & S2 & S3).
  assert (P : is_positive (sign_of v) = true <-> 0 < v).
  { destruct (sign_cases v) as [[E' H]|[[E' H]|[E' H]]]; rewrite E'; cbn; split; intro; try discriminate; try reflexivity; try assumption; exfalso; lra. }
  rewrite P. split; intro H.
  - assert (w < 0) by (apply S1; lra). unfold w in *. lra.
  - assert (- v < 0) by (apply S1; unfold w; lra). lra.
Qed.

Theorem circumsphere t o e : 0 < volume6 t -> circumscribed3 t o ->
  (circumcircle_contains3 t e = Some true <-> dist2_3 o e < dist2_3 o (ttp1 t))
  /\ (circumcircle_contains3 t e = Some false -> dist2_3 o (ttp1 t) <= dist2_3 o e)
  /\ (circumcircle_contains3 t e = None -> dist2_3 o e == dist2_3 o (ttp1 t)).
Proof.
  intros HV HO. unfold circumcircle_contains3.
  destruct (circumcircle_contains3_float t e) as [b|] eqn:E.
  - assert (F := circumsphere_float t o e b HV HO E). repeat split.
    + intro H. injection H as ->. apply F. reflexivity.
    + intro H. f_equal. apply F. exact H.
    + intro H. injection H as ->. apply Qnot_lt_le. intro L. apply F in L. discriminate.
    + discriminate.
  - destruct (circumsphere_exact t o e HV HO) as (S1 & S2 & S3). repeat split; [apply S1|apply S1| |apply S3].
    intro H. apply S2 in H. lra.
Qed.

(** ** The centre of the circumsphere *)

Theorem circumcenter3_exact_ok t : ~ volume6 t == 0 -> circumscribed3 t (circumcenter3_exact t).
Proof.
  destruct t as [[ax ay az] [bx by_ bz] [cx cy cz] [dx dy dz]].
  unfold volume6, circumscribed3, circumcenter3_exact, dist2_3. cbn [ttp1 ttp2 ttp3 ttp4 x3 y3 z3]. cbv zeta. intro HV.
  set (a := determinant4x4 (ax, (ay, az, 1)) (bx, (by_, bz, 1)) (cx, (cy, cz, 1)) (dx, (dy, dz, 1))).
  assert (EA : a == - triple (bx - ax) (by_ - ay) (bz - az) (cx - ax) (cy - ay) (cz - az) (dx - ax) (dy - ay) (dz - az)).
  { unfold a, determinant4x4, determinant3x3, triple. cbn [fst snd]. ring. }
  assert (HA : ~ a == 0) by (rewrite EA; intro F; apply HV; lra).
  set (nx := determinant4x4 _ _ _ _). set (ny := determinant4x4 (_, (ax, az, 1)) _ _ _). set (nz := determinant4x4 (_, (ax, ay, 1)) _ _ _).
  (* Cramer's rule for each edge *)
  assert (C : forall px py pz, (px = bx /\ py = by_ /\ pz = bz) \/ (px = cx /\ py = cy /\ pz = cz) \/ (px = dx /\ py = dy /\ pz = dz) ->
     (px - ax) * nx + (py - ay) * - ny + (pz - az) * nz
     == a * ((px * px + py * py + pz * pz) - (ax * ax + ay * ay + az * az))).
  { unfold a, nx, ny, nz, norm2. cbn [x3 y3 z3]. unfold determinant4x4, determinant3x3. cbn [fst snd].
    intros px py pz [(-> & -> & ->)|[(-> & -> & ->)|(-> & -> & ->)]]; rewrite !Qsq; ring. }
  assert (D : forall px py pz, (px = bx /\ py = by_ /\ pz = bz) \/ (px = cx /\ py = cy /\ pz = cz) \/ (px = dx /\ py = dy /\ pz = dz) ->
     (nx * (1 / (2 * a)) - px) * (nx * (1 / (2 * a)) - px) + (- ny * (1 / (2 * a)) - py) * (- ny * (1 / (2 * a)) - py) + (nz * (1 / (2 * a)) - pz) * (nz * (1 / (2 * a)) - pz)
     == (nx * (1 / (2 * a)) - ax) * (nx * (1 / (2 * a)) - ax) + (- ny * (1 / (2 * a)) - ay) * (- ny * (1 / (2 * a)) - ay) + (nz * (1 / (2 * a)) - az) * (nz * (1 / (2 * a)) - az)).
  { intros px py pz H. apply C in H.
    assert (E : ((px - ax) * nx + (py - ay) * - ny + (pz - az) * nz) * (1 / a) == ((px * px + py * py + pz * pz) - (ax * ax + ay * ay + az * az))).
    { rewrite H. field. exact HA. }
    setoid_replace (1 / (2 * a)) with ((1 # 2) * (1 / a)) by (field; exact HA).
    set (u := 1 / a) in *. clearbody nx ny nz u a. clear - E. nra. }
  repeat split; apply D; auto.
Qed.
