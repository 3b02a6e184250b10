(** Proofs about the containment tests, the initial simplices and the intersection of a
    line with a triangle. *)
From Coq Require Import List Arith Lia QArith Qabs Qfield Lqa Bool.
Import ListNotations.
From Verif Require Import LinSolve_Model LinSolve_Spec LinSolve_Proofs Geometry_Model Geometry_Spec Geometry_Proofs GeometrySolve_Proofs.
Local Open Scope Q_scope.

Lemma sign_full v :
  (sign_of v = Positive /\ 0 < v /\ ~ v < 0 /\ ~ v == 0 /\ 0 <= v)
  \/ (sign_of v = Negative /\ v < 0 /\ ~ 0 < v /\ ~ v == 0 /\ ~ 0 <= v)
  \/ (sign_of v = Zero /\ v == 0 /\ ~ 0 < v /\ ~ v < 0 /\ 0 <= v).
Proof.
  destruct (sign_cases v) as [[E H]|[[E H]|[E H]]]; [left|right; left|right; right]; (split; [exact E|]);
    (split; [exact H|]); (split; [intro; lra|]); (split; [intro; lra|]); first [lra|intro; lra].
Qed.

(** ** The triangle *)

Lemma solve2 a1 b1 c1 a2 b2 c2 : ~ a1 * b2 - b1 * a2 == 0 ->
  exists r s, solve_system_of_equations 2 [[a1; b1; c1]; [a2; b2; c2]] = Some [r; s]
    /\ a1 * r + b1 * s == c1 /\ a2 * r + b2 * s == c2.
Proof.
  intro HD.
  destruct (solver_complete 2 [[a1; b1; c1]; [a2; b2; c2]]) as [xs E].
  - intros x Hx j Hj. assert (H0 := Hx 0%nat ltac:(lia)). assert (H1 := Hx 1%nat ltac:(lia)). cbn [sum nth] in H0, H1.
    destruct (cramer2 a1 b1 a2 b2 (x 0%nat) (x 1%nat)) as [A B].
    + intro F. apply HD. rewrite <- F. ring.
    + lra.
    + lra.
    + destruct j as [|[|j]]; [exact A|exact B|lia].
  - destruct (solver_sound _ _ _ E) as (L & S & _).
    destruct xs as [|r [|s [|? ?]]]; try discriminate L. exists r, s. split; [exact E|].
    assert (H0 := S 0%nat ltac:(lia)). assert (H1 := S 1%nat ltac:(lia)). cbn [sum nth fn] in H0, H1. unfold fn in *. cbn [nth] in *.
    split; lra.
Qed.

Lemma solve2_degenerate a1 b1 c1 a2 b2 c2 : a1 * b2 - b1 * a2 == 0 ->
  solve_system_of_equations 2 [[a1; b1; c1]; [a2; b2; c2]] = None.
Proof.
  intro HD. destruct (solve_system_of_equations 2 _) as [xs|] eqn:E; [|reflexivity]. exfalso.
  destruct (solver_sound _ _ _ E) as (_ & _ & N).
  assert (K : forall u v, a1 * u + b1 * v == 0 -> a2 * u + b2 * v == 0 -> u == 0 /\ v == 0).
  { intros u v H1 H2. assert (Z : forall j, (j < 2)%nat -> (fun j => match j with O => u | _ => v end) j == 0).
    - apply N. intros i Hi. destruct i as [|[|i]]; [| |lia]; cbn [sum nth]; lra.
    - split; [exact (Z 0%nat ltac:(lia))|exact (Z 1%nat ltac:(lia))]. }
  destruct (K b1 (- a1)) as [B1 A1]; [ring|lra|].
  destruct (K b2 (- a2)) as [B2 A2]; [lra|ring|].
  destruct (K 1 0) as [F _]; [nra|nra|]. discriminate F.
Qed.

Lemma mean2_unique t l1 l2 l3 m1 m2 m3 p : ~ area2 t == 0 -> mean2 t l1 l2 l3 p -> mean2 t m1 m2 m3 p ->
  l1 == m1 /\ l2 == m2 /\ l3 == m3.
Proof.
  destruct t as [[ax ay] [bx by_] [cx cy]], p as [px py]. unfold area2, mean2. cbn [t2p1 t2p2 t2p3 x2 y2].
  intros HA (L & Lx & Ly) (M & Mx & My).
  assert (E1 : l1 == 1 - l2 - l3) by lra. assert (F1 : m1 == 1 - m2 - m3) by lra.
  destruct (cramer2 (bx - ax) (cx - ax) (by_ - ay) (cy - ay) (l2 - m2) (l3 - m3)) as [A B].
  - intro F. apply HA. rewrite <- F. ring.
  - rewrite E1 in Lx. rewrite F1 in Mx. lra.
  - rewrite E1 in Ly. rewrite F1 in My. lra.
  - repeat split; lra.
Qed.

Lemma contains2_cases t p : ~ area2 t == 0 -> exists r s,
  mean2 t (1 - (r + s)) r s p /\
  contains2 t p = (let signs := map sign_of [r; s; 1 - (r + s)] in
      if existsb is_negative signs then Some false
      else if existsb (fun s => match s with Zero => true | _ => false end) signs then None
      else Some true).
Proof.
  destruct t as [[ax ay] [bx by_] [cx cy]], p as [px py]. intro HA. unfold contains2. cbn [t2p1 t2p2 t2p3 sub2 x2 y2].
  destruct (solve2 (bx - ax) (cx - ax) (px - ax) (by_ - ay) (cy - ay) (py - ay)) as (r & s & E & H1 & H2).
  - intro F. apply HA. unfold area2. cbn [t2p1 t2p2 t2p3 x2 y2]. rewrite <- F. ring.
  - exists r, s. rewrite E. split; [|reflexivity].
    unfold mean2. cbn [t2p1 t2p2 t2p3 x2 y2]. repeat split; lra.
Qed.

Theorem contains2_ok t p : ~ area2 t == 0 ->
  (contains2 t p = Some true <-> strictly_inside2 t p)
  /\ (contains2 t p = Some false <-> strictly_outside2 t p)
  /\ (contains2 t p = None <-> on_edge2 t p).
Proof.
  intro HA. destruct (contains2_cases t p HA) as (r & s & M & ->).
  set (l1 := 1 - (r + s)) in *.
  assert (U : forall m1 m2 m3, mean2 t m1 m2 m3 p -> l1 == m1 /\ r == m2 /\ s == m3).
  { intros m1 m2 m3. apply mean2_unique; assumption. }
  clearbody l1. cbv zeta. cbn [map existsb].
  assert (I : strictly_inside2 t p <-> 0 < l1 /\ 0 < r /\ 0 < s).
  { split; [intros (m1 & m2 & m3 & Hm & H); apply U in Hm; lra|]. intro H. exists l1, r, s. tauto. }
  assert (O : strictly_outside2 t p <-> l1 < 0 \/ r < 0 \/ s < 0).
  { split; [intros (m1 & m2 & m3 & Hm & H); apply U in Hm; lra|]. intro H. exists l1, r, s. tauto. }
  assert (Z : on_edge2 t p <-> 0 <= l1 /\ 0 <= r /\ 0 <= s /\ (l1 == 0 \/ r == 0 \/ s == 0)).
  { split; [intros (m1 & m2 & m3 & Hm & H); apply U in Hm; lra|]. intro H. exists l1, r, s. tauto. }
  rewrite I, O, Z. clear - l1.
  destruct (sign_full r) as [[E1 H1]|[[E1 H1]|[E1 H1]]]; destruct (sign_full s) as [[E2 H2]|[[E2 H2]|[E2 H2]]];
  destruct (sign_full l1) as [[E3 H3]|[[E3 H3]|[E3 H3]]]; rewrite E1, E2, E3; clear E1 E2 E3; cbn [is_negative orb];
    (split; [split|split; split]; intro K; try discriminate K; try reflexivity; tauto).
Qed.

Theorem contains2_degenerate t p : area2 t == 0 -> contains2 t p = None.
Proof.
  destruct t as [[ax ay] [bx by_] [cx cy]], p as [px py]. unfold area2, contains2. cbn [t2p1 t2p2 t2p3 sub2 x2 y2]. intro HA.
  rewrite solve2_degenerate; [reflexivity|]. rewrite <- HA. ring.
Qed.

(** ** The tetrahedron *)

(** The value the test compares for one face, at a weighted mean of the corners. *)
Definition face_dot (p a b c : point3) : Q := dot3 (sub3 p a) (cross3 (sub3 b a) (sub3 c a)).

Lemma face_dot_coords p a b c :
  face_dot p a b c == triple (x3 b - x3 a) (y3 b - y3 a) (z3 b - z3 a) (x3 c - x3 a) (y3 c - y3 a) (z3 c - z3 a) (x3 p - x3 a) (y3 p - y3 a) (z3 p - z3 a).
Proof. unfold face_dot, dot3, cross3, sub3, triple. cbn [x3 y3 z3]. ring. Qed.

Lemma same_side_spec p q a b c :
  (same_side p q a b c = Some true <-> 0 < face_dot p a b c * face_dot q a b c)
  /\ (same_side p q a b c = Some false <-> face_dot p a b c * face_dot q a b c < 0)
  /\ (same_side p q a b c = None <-> face_dot p a b c * face_dot q a b c == 0).
Proof. unfold same_side. rewrite sign_mul_spec. apply positive_test. Qed.

Lemma face_dot_mean p l1 l2 l3 l4 q a b c :
  l1 + l2 + l3 + l4 == 1 ->
  x3 p == l1 * x3 q + l2 * x3 a + l3 * x3 b + l4 * x3 c ->
  y3 p == l1 * y3 q + l2 * y3 a + l3 * y3 b + l4 * y3 c ->
  z3 p == l1 * z3 q + l2 * z3 a + l3 * z3 b + l4 * z3 c ->
  face_dot p a b c == l1 * face_dot q a b c.
Proof.
  intros HL HX HY HZ. rewrite !face_dot_coords. unfold triple. rewrite HX, HY, HZ.
  assert (E : l2 == 1 - l1 - l3 - l4) by lra. rewrite E. ring.
Qed.

Lemma same_side_weight p q a b c l1 l2 l3 l4 : ~ face_dot q a b c == 0 ->
  l1 + l2 + l3 + l4 == 1 ->
  x3 p == l1 * x3 q + l2 * x3 a + l3 * x3 b + l4 * x3 c ->
  y3 p == l1 * y3 q + l2 * y3 a + l3 * y3 b + l4 * y3 c ->
  z3 p == l1 * z3 q + l2 * z3 a + l3 * z3 b + l4 * z3 c ->
  (same_side p q a b c = Some true <-> 0 < l1)
  /\ (same_side p q a b c = Some false <-> l1 < 0)
  /\ (same_side p q a b c = None <-> l1 == 0).
Proof.
  intros HN HL HX HY HZ. assert (E := face_dot_mean p l1 l2 l3 l4 q a b c HL HX HY HZ).
  set (f := face_dot q a b c) in *.
  assert (P : 0 < f * f).
  { destruct (Qlt_le_dec 0 f) as [H|H]; [apply Qmult_lt_0_compat; assumption|].
    assert (f < 0) by (apply Qle_lteq in H as [H|H]; [exact H|contradiction]).
    setoid_replace (f * f) with ((- f) * (- f)) by ring. apply Qmult_lt_0_compat; lra. }
  assert (E' : face_dot p a b c * f == (f * f) * l1) by (rewrite E; ring).
  destruct (scaled_sign _ _ _ P E') as (S1 & S2 & S3).
  destruct (same_side_spec p q a b c) as (T1 & T2 & T3). fold f in T1, T2, T3.
  rewrite T1, T2, T3. tauto.
Qed.

(** The weights of a point exist and are unique. *)
Lemma mean4_exists t p : ~ volume6 t == 0 -> exists l1 l2 l3 l4, mean4 t l1 l2 l3 l4 p.
Proof.
  destruct t as [[ax ay az] [bx by_ bz] [cx cy cz] [dx dy dz]], p as [px py pz].
  unfold volume6, mean4. cbn [ttp1 ttp2 ttp3 ttp4 x3 y3 z3]. intro HV.
  set (V := triple _ _ _ _ _ _ _ _ _) in HV.
  pose (k2 := triple (px - ax) (py - ay) (pz - az) (cx - ax) (cy - ay) (cz - az) (dx - ax) (dy - ay) (dz - az)).
  pose (k3 := triple (bx - ax) (by_ - ay) (bz - az) (px - ax) (py - ay) (pz - az) (dx - ax) (dy - ay) (dz - az)).
  pose (k4 := triple (bx - ax) (by_ - ay) (bz - az) (cx - ax) (cy - ay) (cz - az) (px - ax) (py - ay) (pz - az)).
  assert (Ex : V * (px - ax) == k2 * (bx - ax) + k3 * (cx - ax) + k4 * (dx - ax)) by (unfold V, k2, k3, k4, triple; ring).
  assert (Ey : V * (py - ay) == k2 * (by_ - ay) + k3 * (cy - ay) + k4 * (dy - ay)) by (unfold V, k2, k3, k4, triple; ring).
  assert (Ez : V * (pz - az) == k2 * (bz - az) + k3 * (cz - az) + k4 * (dz - az)) by (unfold V, k2, k3, k4, triple; ring).
  exists (1 - k2 / V - k3 / V - k4 / V), (k2 / V), (k3 / V), (k4 / V). clearbody k2 k3 k4 V.
  repeat split; [ring| | |].
  - transitivity (ax + (V * (px - ax)) / V); [field; exact HV|]. rewrite Ex. field. exact HV.
  - transitivity (ay + (V * (py - ay)) / V); [field; exact HV|]. rewrite Ey. field. exact HV.
  - transitivity (az + (V * (pz - az)) / V); [field; exact HV|]. rewrite Ez. field. exact HV.
Qed.

Lemma mean4_unique t l1 l2 l3 l4 m1 m2 m3 m4 p : ~ volume6 t == 0 -> mean4 t l1 l2 l3 l4 p -> mean4 t m1 m2 m3 m4 p ->
  l1 == m1 /\ l2 == m2 /\ l3 == m3 /\ l4 == m4.
Proof.
  destruct t as [[ax ay az] [bx by_ bz] [cx cy cz] [dx dy dz]], p as [px py pz].
  unfold volume6, mean4. cbn [ttp1 ttp2 ttp3 ttp4 x3 y3 z3]. intros HV (L & Lx & Ly & Lz) (M & Mx & My & Mz).
  assert (E1 : l1 == 1 - l2 - l3 - l4) by lra. assert (F1 : m1 == 1 - m2 - m3 - m4) by lra.
  destruct (cramer3 (bx - ax) (cx - ax) (dx - ax) (by_ - ay) (cy - ay) (dy - ay) (bz - az) (cz - az) (dz - az) (l2 - m2) (l3 - m3) (l4 - m4)) as (A & B & C).
  - intro F. apply HV. rewrite <- F. unfold triple. ring.
  - rewrite E1 in Lx. rewrite F1 in Mx. lra.
  - rewrite E1 in Ly. rewrite F1 in My. lra.
  - rewrite E1 in Lz. rewrite F1 in Mz. lra.
  - repeat split; lra.
Qed.

Lemma weights_test t p l1 l2 l3 l4 : ~ volume6 t == 0 -> mean4 t l1 l2 l3 l4 p ->
  contains3 t p = and_then (option_map is_positive (panic_if_zero (sign_of l1)))
    (and_then (option_map is_positive (panic_if_zero (sign_of l2)))
      (and_then (option_map is_positive (panic_if_zero (sign_of l3))) (option_map is_positive (panic_if_zero (sign_of l4))))).
Proof.
  intros HV (L & Lx & Ly & Lz).
  assert (EQ : forall a b : option bool, (a = Some true <-> b = Some true) -> (a = Some false <-> b = Some false) -> (a = None <-> b = None) -> a = b).
  { intros a b H1 H2 H3. destruct a as [[]|]; [symmetry; apply H1|symmetry; apply H2|symmetry; apply H3]; reflexivity. }
  assert (W : forall q a b c m1 m2 m3 m4, ~ face_dot q a b c == 0 -> m1 + m2 + m3 + m4 == 1 ->
    x3 p == m1 * x3 q + m2 * x3 a + m3 * x3 b + m4 * x3 c ->
    y3 p == m1 * y3 q + m2 * y3 a + m3 * y3 b + m4 * y3 c ->
    z3 p == m1 * z3 q + m2 * z3 a + m3 * z3 b + m4 * z3 c ->
    same_side p q a b c = option_map is_positive (panic_if_zero (sign_of m1))).
  { intros q a b c m1 m2 m3 m4 HN H1 H2 H3 H4.
    destruct (same_side_weight p q a b c m1 m2 m3 m4 HN H1 H2 H3 H4) as (A & B & C).
    destruct (positive_test m1) as (A' & B' & C'). apply EQ; [rewrite A, A'|rewrite B, B'|rewrite C, C']; reflexivity. }
  unfold contains3. cbv zeta.
  rewrite (W (ttp1 t) (ttp2 t) (ttp3 t) (ttp4 t) l1 l2 l3 l4), (W (ttp2 t) (ttp1 t) (ttp3 t) (ttp4 t) l2 l1 l3 l4),
          (W (ttp3 t) (ttp1 t) (ttp2 t) (ttp4 t) l3 l1 l2 l4), (W (ttp4 t) (ttp1 t) (ttp2 t) (ttp3 t) l4 l1 l2 l3); try lra; [reflexivity| | | |];
    intro F; apply HV; rewrite face_dot_coords in F; unfold volume6; unfold triple in *;
    match type of F with ?v == 0 => first [transitivity v; [ring|exact F]|transitivity (- v); [ring|rewrite F; reflexivity]] end.
Qed.

Theorem contains3_ok t p : ~ volume6 t == 0 ->
  (contains3 t p = Some true <-> strictly_inside3 t p)
  /\ (contains3 t p = Some false -> strictly_outside3 t p)
  /\ (contains3 t p = None -> on_face_plane3 t p).
Proof.
  intro HV. destruct (mean4_exists t p HV) as (l1 & l2 & l3 & l4 & M).
  rewrite (weights_test t p l1 l2 l3 l4 HV M).
  assert (U : forall m1 m2 m3 m4, mean4 t m1 m2 m3 m4 p -> l1 == m1 /\ l2 == m2 /\ l3 == m3 /\ l4 == m4).
  { intros m1 m2 m3 m4. apply mean4_unique; assumption. }
  assert (I : strictly_inside3 t p <-> 0 < l1 /\ 0 < l2 /\ 0 < l3 /\ 0 < l4).
  { split; [intros (m1 & m2 & m3 & m4 & Hm & H); apply U in Hm; lra|]. intro H. exists l1, l2, l3, l4. tauto. }
  assert (O : l1 < 0 \/ l2 < 0 \/ l3 < 0 \/ l4 < 0 -> strictly_outside3 t p) by (intro H; exists l1, l2, l3, l4; tauto).
  assert (Z : l1 == 0 \/ l2 == 0 \/ l3 == 0 \/ l4 == 0 -> on_face_plane3 t p) by (intro H; exists l1, l2, l3, l4; tauto).
  rewrite I. clear M U I HV.
  destruct (sign_full l1) as [[E1 H1]|[[E1 H1]|[E1 H1]]]; destruct (sign_full l2) as [[E2 H2]|[[E2 H2]|[E2 H2]]];
  destruct (sign_full l3) as [[E3 H3]|[[E3 H3]|[E3 H3]]]; destruct (sign_full l4) as [[E4 H4]|[[E4 H4]|[E4 H4]]];
    rewrite E1, E2, E3, E4; clear E1 E2 E3 E4; cbn [and_then option_map panic_if_zero is_positive];
    (split; [split|split]; intro K; try discriminate K; try reflexivity; tauto).
Qed.

(** ** The initial simplices *)

Theorem all_encompassing2_ok min max p : x2 min < x2 max -> y2 min < y2 max -> in_box2 min max p ->
  0 < area2 (all_encompassing2 min max) /\ strictly_inside2 (all_encompassing2 min max) p.
Proof.
  destruct min as [mx my], max as [Mx My], p as [px py]. unfold in_box2. cbn [x2 y2]. intros Hx Hy [[A B] [C D]].
  unfold area2, strictly_inside2, mean2, all_encompassing2. cbn [t2p1 t2p2 t2p3 x2 y2].
  set (dx := Mx - mx). set (dy := My - my). assert (Dx : 0 < dx) by (unfold dx; lra). assert (Dy : 0 < dy) by (unfold dy; lra).
  split; [assert (0 < dx * dy) by (apply Qmult_lt_0_compat; assumption)|].
  - setoid_replace Mx with (mx + dx) by (unfold dx; ring). setoid_replace My with (my + dy) by (unfold dy; ring).
    setoid_replace ((mx - dx * 1 - mx) * (my - (my + dy + dy * (1 + 1))) - (my - dy * 1 - (my + dy + dy * (1 + 1))) * (mx + dx + dx * (1 + 1) - mx))
      with (15 * (dx * dy)) by ring. lra.
  - (* weights from the coordinates u, v of the point in the box *)
    set (u := (px - mx) / dx). set (v := (py - my) / dy).
    assert (Eu : px == mx + u * dx) by (unfold u; field; lra). assert (Ev : py == my + v * dy) by (unfold v; field; lra).
    assert (U0 : 0 <= u) by (unfold u; apply Qle_shift_div_l; lra).
    assert (U1 : u <= 1) by (unfold u; apply Qle_shift_div_r; unfold dx; lra).
    assert (V0 : 0 <= v) by (unfold v; apply Qle_shift_div_l; lra).
    assert (V1 : v <= 1) by (unfold v; apply Qle_shift_div_r; unfold dy; lra).
    clearbody u v.
    (* l2 = (3 - u - v) / 5, l3 = (u + l2) / 3, l1 = (v + l2) / 3 *)
    exists ((3 + 4 * v - u) * (1 # 15)), ((3 - u - v) * (1 # 5)), ((3 + 4 * u - v) * (1 # 15)).
    setoid_replace Mx with (mx + dx) by (unfold dx; ring). setoid_replace My with (my + dy) by (unfold dy; ring).
    repeat split; lra.
Qed.

Theorem all_encompassing3_ok min max p : x3 min < x3 max -> y3 min < y3 max -> z3 min < z3 max -> in_box3 min max p ->
  0 < volume6 (all_encompassing3 min max) /\ strictly_inside3 (all_encompassing3 min max) p.
Proof.
  destruct min as [mx my mz], max as [Mx My Mz], p as [px py pz]. unfold in_box3. cbn [x3 y3 z3]. intros Hx Hy Hz [[A B] [[C D] [E F]]].
  unfold volume6, strictly_inside3, mean4, all_encompassing3. cbn [ttp1 ttp2 ttp3 ttp4 x3 y3 z3 add3 sub3 scale3].
  set (dx := Mx - mx). set (dy := My - my). set (dz := Mz - mz).
  assert (Dx : 0 < dx) by (unfold dx; lra). assert (Dy : 0 < dy) by (unfold dy; lra). assert (Dz : 0 < dz) by (unfold dz; lra).
  split.
  - assert (0 < dx * dy * dz) by (repeat apply Qmult_lt_0_compat; assumption).
    match goal with |- 0 < triple ?a1 ?a2 ?a3 ?b1 ?b2 ?b3 ?c1 ?c2 ?c3 =>
      setoid_replace (triple a1 a2 a3 b1 b2 b3 c1 c2 c3) with ((30370394 # 1000000) * (dx * dy * dz)) by (unfold triple, dx, dy, dz; ring) end.
    lra.
  - set (u := (px - mx) / dx). set (v := (py - my) / dy). set (w := (pz - mz) / dz).
    assert (Eu : px == mx + u * dx) by (unfold u; field; lra). assert (Ev : py == my + v * dy) by (unfold v; field; lra).
    assert (Ew : pz == mz + w * dz) by (unfold w; field; lra).
    assert (U0 : 0 <= u) by (unfold u; apply Qle_shift_div_l; lra).
    assert (U1 : u <= 1) by (unfold u; apply Qle_shift_div_r; unfold dx; lra).
    assert (V0 : 0 <= v) by (unfold v; apply Qle_shift_div_l; lra).
    assert (V1 : v <= 1) by (unfold v; apply Qle_shift_div_r; unfold dy; lra).
    assert (W0 : 0 <= w) by (unfold w; apply Qle_shift_div_l; lra).
    assert (W1 : w <= 1) by (unfold w; apply Qle_shift_div_r; unfold dz; lra).
    clearbody u v w.
    (* l1 = (311 - 100 (u + v + w)) / 314; l2 = (u + l1 / 100) / 3.11 *)
    exists ((311 - 100 * (u + v + w)) * (1 # 314)),
           ((u + (311 - 100 * (u + v + w)) * (1 # 31400)) * (100 # 311)),
           ((v + (311 - 100 * (u + v + w)) * (1 # 31400)) * (100 # 311)),
           ((w + (311 - 100 * (u + v + w)) * (1 # 31400)) * (100 # 311)).
    setoid_replace Mx with (mx + dx) by (unfold dx; ring). setoid_replace My with (my + dy) by (unfold dy; ring). setoid_replace Mz with (mz + dz) by (unfold dz; ring).
    repeat split; lra.
Qed.
