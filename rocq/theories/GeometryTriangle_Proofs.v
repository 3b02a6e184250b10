(** Proofs about the intersection of a line with a triangle in space and about the
    closest point of a triangle. *)
From Coq Require Import List Arith Lia QArith Qabs Qfield Lqa Bool.
Import ListNotations.
From Verif Require Import LinSolve_Model LinSolve_Spec LinSolve_Proofs Geometry_Model Geometry_Spec Geometry_Proofs GeometrySolve_Proofs GeometryContains_Proofs.
Local Open Scope Q_scope.

(** ** Lines and triangles *)

Lemma solve3 a1 b1 k1 c1 a2 b2 k2 c2 a3 b3 k3 c3 : ~ triple a1 b1 k1 a2 b2 k2 a3 b3 k3 == 0 ->
  exists r s u, solve_system_of_equations 3 [[a1; b1; k1; c1]; [a2; b2; k2; c2]; [a3; b3; k3; c3]] = Some [r; s; u]
    /\ a1 * r + b1 * s + k1 * u == c1 /\ a2 * r + b2 * s + k2 * u == c2 /\ a3 * r + b3 * s + k3 * u == c3.
Proof.
  intro HD.
  destruct (solver_complete 3 [[a1; b1; k1; c1]; [a2; b2; k2; c2]; [a3; b3; k3; c3]]) as [xs E].
  - intros x Hx j Hj. assert (H0 := Hx 0%nat ltac:(lia)). assert (H1 := Hx 1%nat ltac:(lia)). assert (H2 := Hx 2%nat ltac:(lia)).
    cbn [sum nth] in H0, H1, H2.
    destruct (cramer3 a1 b1 k1 a2 b2 k2 a3 b3 k3 (x 0%nat) (x 1%nat) (x 2%nat) HD) as (A & B & C); [lra|lra|lra|].
    destruct j as [|[|[|j]]]; [exact A|exact B|exact C|lia].
  - destruct (solver_sound _ _ _ E) as (L & S & _).
    destruct xs as [|r [|s [|u [|? ?]]]]; try discriminate L. exists r, s, u. split; [exact E|].
    assert (H0 := S 0%nat ltac:(lia)). assert (H1 := S 1%nat ltac:(lia)). assert (H2 := S 2%nat ltac:(lia)).
    unfold fn in *. cbn [sum nth] in *. repeat split; lra.
Qed.

Lemma solve3_degenerate a1 b1 k1 c1 a2 b2 k2 c2 a3 b3 k3 c3 : triple a1 b1 k1 a2 b2 k2 a3 b3 k3 == 0 ->
  solve_system_of_equations 3 [[a1; b1; k1; c1]; [a2; b2; k2; c2]; [a3; b3; k3; c3]] = None.
Proof.
  unfold triple. intro HD. destruct (solve_system_of_equations 3 _) as [xs|] eqn:E; [|reflexivity]. exfalso.
  destruct (solver_sound _ _ _ E) as (_ & _ & N).
  assert (K : forall u v w, a1 * u + b1 * v + k1 * w == 0 -> a2 * u + b2 * v + k2 * w == 0 -> a3 * u + b3 * v + k3 * w == 0 -> u == 0 /\ v == 0 /\ w == 0).
  { intros u v w H1 H2 H3. assert (Z : forall j, (j < 3)%nat -> (fun j => match j with O => u | 1%nat => v | _ => w end) j == 0).
    - apply N. intros i Hi. destruct i as [|[|[|i]]]; [| | |lia]; cbn [sum nth]; lra.
    - split; [exact (Z 0%nat ltac:(lia))|split; [exact (Z 1%nat ltac:(lia))|exact (Z 2%nat ltac:(lia))]]. }
  (* all cofactors vanish *)
  destruct (K (b2 * k3 - k2 * b3) (k2 * a3 - a2 * k3) (a2 * b3 - b2 * a3)) as (A1 & B1 & C1); [rewrite <- HD; ring|ring|ring|].
  destruct (K (b3 * k1 - k3 * b1) (k3 * a1 - a3 * k1) (a3 * b1 - b3 * a1)) as (A2 & B2 & C2); [ring|rewrite <- HD; ring|ring|].
  destruct (K (b1 * k2 - k1 * b2) (k1 * a2 - a1 * k2) (a1 * b2 - b1 * a2)) as (A3 & B3 & C3); [ring|ring|rewrite <- HD; ring|].
  (* so the first two columns are proportional *)
  assert (P1 : a1 * b2 == b1 * a2) by lra. assert (P2 : a2 * b3 == b2 * a3) by lra. assert (P3 : a1 * b3 == b1 * a3) by lra.
  destruct (K b1 (- a1) 0) as (X1 & X2 & _); [ring|lra|lra|].
  destruct (K b2 (- a2) 0) as (Y1 & Y2 & _); [lra|ring|lra|].
  destruct (K b3 (- a3) 0) as (Z1 & Z2 & _); [lra|lra|ring|].
  destruct (K 1 0 0) as (F & _ & _); [lra|lra|lra|]. discriminate F.
Qed.

Lemma line_meets_unique t q1 q2 l1 l2 l3 m1 m2 m3 : ~ parallel t q1 q2 -> line_meets t q1 q2 l1 l2 l3 -> line_meets t q1 q2 m1 m2 m3 ->
  l1 == m1 /\ l2 == m2 /\ l3 == m3.
Proof.
  destruct t as [[ax ay az] [bx by_ bz] [cx cy cz]], q1 as [px py pz], q2 as [qx qy qz].
  unfold parallel, line_meets, mean3. cbn [t3p1 t3p2 t3p3 x3 y3 z3].
  intros HP (k & L & Lx & Ly & Lz) (n & M & Mx & My & Mz).
  assert (E1 : l1 == 1 - l2 - l3) by lra. assert (F1 : m1 == 1 - m2 - m3) by lra.
  destruct (cramer3 (bx - ax) (cx - ax) (qx - px) (by_ - ay) (cy - ay) (qy - py) (bz - az) (cz - az) (qz - pz) (l2 - m2) (l3 - m3) (n - k)) as (A & B & C).
  - intro F. apply HP. rewrite <- F. unfold triple. ring.
  - rewrite E1 in Lx. rewrite F1 in Mx. lra.
  - rewrite E1 in Ly. rewrite F1 in My. lra.
  - rewrite E1 in Lz. rewrite F1 in Mz. lra.
  - repeat split; lra.
Qed.

Lemma intersection_cases t q1 q2 : ~ parallel t q1 q2 -> exists r s,
  line_meets t q1 q2 (1 - (r + s)) r s /\ get_line_intersection_type t q1 q2 = get_intersection_type r s.
Proof.
  destruct t as [[ax ay az] [bx by_ bz] [cx cy cz]], q1 as [px py pz], q2 as [qx qy qz].
  unfold parallel, line_meets, mean3, get_line_intersection_type. cbn [t3p1 t3p2 t3p3 x3 y3 z3 sub3]. intro HP.
  destruct (solve3 (bx - ax) (cx - ax) (- (qx - px)) (px - ax) (by_ - ay) (cy - ay) (- (qy - py)) (py - ay) (bz - az) (cz - az) (- (qz - pz)) (pz - az)) as (r & s & u & E & H1 & H2 & H3).
  - intro F. apply HP. match type of F with ?v == 0 => transitivity (- v); [unfold triple; ring|rewrite F; reflexivity] end.
  - exists r, s. rewrite E. split; [|reflexivity]. exists u. repeat split; lra.
Qed.

Lemma get_intersection_type_spec r s :
  (forall i, get_intersection_type r s = Some i -> describes i (1 - (r + s)) r s)
  /\ (get_intersection_type r s = None -> r == 0 \/ s == 0 \/ 1 - (r + s) == 0).
Proof.
  unfold get_intersection_type. cbv zeta. cbn [map existsb combine filter fst snd].
  assert (H : r + s + (1 - (r + s)) == 1) by ring. set (l := 1 - (r + s)) in *. clearbody l.
  destruct (sign_cases r) as [[E1 H1]|[[E1 H1]|[E1 H1]]]; destruct (sign_cases s) as [[E2 H2]|[[E2 H2]|[E2 H2]]];
  destruct (sign_cases l) as [[E3 H3]|[[E3 H3]|[E3 H3]]]; rewrite E1, E2, E3; clear E1 E2 E3;
    cbn [is_negative orb map filter fst snd app]; try (exfalso; lra);
    (split; [intros i K; try discriminate K; injection K as <-; cbn [describes]; tauto|intro K; try discriminate K; tauto]).
Qed.

Theorem line_intersection_ok t q1 q2 : ~ parallel t q1 q2 ->
  exists l1 l2 l3, line_meets t q1 q2 l1 l2 l3
    /\ (forall i, get_line_intersection_type t q1 q2 = Some i <-> describes i l1 l2 l3)
    /\ (get_line_intersection_type t q1 q2 = None <-> l1 == 0 \/ l2 == 0 \/ l3 == 0).
Proof.
  intro HP. destruct (intersection_cases t q1 q2 HP) as (r & s & M & ->).
  exists (1 - (r + s)), r, s. split; [exact M|].
  destruct (get_intersection_type_spec r s) as [S1 S2].
  assert (X : forall i j, describes i (1 - (r + s)) r s -> describes j (1 - (r + s)) r s -> i = j).
  { set (l := 1 - (r + s)). clearbody l.
    intros i j Hi Hj. destruct i as [|[]|[] []], j as [|[]|[] []]; cbn [describes] in *; try reflexivity; exfalso; lra. }
  assert (Y : forall i, describes i (1 - (r + s)) r s -> ~ (1 - (r + s) == 0 \/ r == 0 \/ s == 0)).
  { set (l := 1 - (r + s)). clearbody l. intros i Hi. destruct i as [|[]|[] []]; cbn [describes] in Hi; lra. }
  destruct (get_intersection_type r s) as [i|].
  - specialize (S1 i eq_refl). split.
    + intro j. split; [intro K; injection K as <-; exact S1|]. intro Hj. f_equal. apply X; assumption.
    + split; [discriminate|]. intro K. exfalso. exact (Y i S1 K).
  - specialize (S2 eq_refl). split.
    + intro j. split; [discriminate|]. intro Hj. exfalso. apply (Y j Hj). tauto.
    + split; [intros _; tauto|reflexivity].
Qed.

Theorem line_intersection_parallel t q1 q2 : parallel t q1 q2 -> get_line_intersection_type t q1 q2 = None.
Proof.
  destruct t as [[ax ay az] [bx by_ bz] [cx cy cz]], q1 as [px py pz], q2 as [qx qy qz].
  unfold parallel, get_line_intersection_type. cbn [t3p1 t3p2 t3p3 x3 y3 z3 sub3]. intro HP.
  rewrite solve3_degenerate; [reflexivity|].
  match type of HP with ?v == 0 => transitivity (- v); [unfold triple; ring|rewrite HP; reflexivity] end.
Qed.

(** ** The closest point *)

(** The weights [(v, w)] of the second and third corner, from the scalar products. *)
Section Scalars.
  Variables A B C d1 d2 : Q.
  Let d3 := d1 - A. Let d4 := d2 - C. Let d5 := d1 - C. Let d6 := d2 - B.
  Let vc := d1 * d4 - d3 * d2. Let vb := d5 * d2 - d1 * d6. Let va := d3 * d6 - d5 * d4.

  (** The point is the closest: the gradient points out of the triangle. *)
  Definition optimal (v w : Q) : Prop :=
    0 <= v /\ 0 <= w /\ v + w <= 1
    /\ - (v * (d1 - v * A - w * C) + w * (d2 - v * C - w * B)) <= 0
    /\ (d1 - v * A - w * C) - (v * (d1 - v * A - w * C) + w * (d2 - v * C - w * B)) <= 0
    /\ (d2 - v * C - w * B) - (v * (d1 - v * A - w * C) + w * (d2 - v * C - w * B)) <= 0.
End Scalars.

Lemma opt_a A B C d1 d2 : d1 <= 0 -> d2 <= 0 -> optimal A B C d1 d2 0 0.
Proof. intros. unfold optimal. repeat split; lra. Qed.
Lemma opt_b A B C d1 d2 : 0 <= d1 - A -> d2 - C <= d1 - A -> optimal A B C d1 d2 1 0.
Proof. intros. unfold optimal. repeat split; lra. Qed.
Lemma opt_c A B C d1 d2 : 0 <= d2 - B -> d1 - C <= d2 - B -> optimal A B C d1 d2 0 1.
Proof. intros. unfold optimal. repeat split; lra. Qed.

Lemma div_bounds n m : 0 < n + m -> 0 <= n -> 0 <= m -> 0 <= n / (n + m) <= 1.
Proof. intros H Hn Hm. split; [apply Qle_shift_div_l; lra|apply Qle_shift_div_r; lra]. Qed.

Lemma opt_ab A B C d1 d2 : 0 < A -> d1 * (d2 - C) - (d1 - A) * d2 <= 0 -> 0 <= d1 -> d1 - A <= 0 ->
  optimal A B C d1 d2 (d1 / (d1 - (d1 - A))) 0.
Proof.
  intros HA Hv H1 H3. set (v := d1 / (d1 - (d1 - A))).
  assert (E : v * A == d1) by (unfold v; field; lra).
  assert (V : 0 <= v <= 1).
  { unfold v. split; [apply Qle_shift_div_l; lra|apply Qle_shift_div_r; lra]. }
  clearbody v. unfold optimal.
  assert (G : (d2 - v * C) * A <= 0) by (setoid_replace ((d2 - v * C) * A) with (d2 * A - (v * A) * C) by ring; rewrite E; lra).
  assert (G' : d2 - v * C <= 0).
  { apply Qnot_lt_le. intro F. assert (0 < (d2 - v * C) * A) by (apply Qmult_lt_0_compat; assumption). lra. }
  repeat split; try lra; nra.
Qed.

Lemma opt_ac A B C d1 d2 : 0 < B -> (d1 - C) * d2 - d1 * (d2 - B) <= 0 -> 0 <= d2 -> d2 - B <= 0 ->
  optimal A B C d1 d2 0 (d2 / (d2 - (d2 - B))).
Proof.
  intros HB Hv H1 H3. set (w := d2 / (d2 - (d2 - B))).
  assert (E : w * B == d2) by (unfold w; field; lra).
  assert (V : 0 <= w <= 1).
  { unfold w. split; [apply Qle_shift_div_l; lra|apply Qle_shift_div_r; lra]. }
  clearbody w. unfold optimal.
  assert (G : (d1 - w * C) * B <= 0) by (setoid_replace ((d1 - w * C) * B) with (d1 * B - (w * B) * C) by ring; rewrite E; lra).
  assert (G' : d1 - w * C <= 0).
  { apply Qnot_lt_le. intro F. assert (0 < (d1 - w * C) * B) by (apply Qmult_lt_0_compat; assumption). lra. }
  repeat split; try lra; nra.
Qed.

Lemma opt_bc A B C d1 d2 : 0 < A + B - 2 * C ->
  (d1 - A) * (d2 - B) - (d1 - C) * (d2 - C) <= 0 -> 0 <= (d2 - C) - (d1 - A) -> 0 <= (d1 - C) - (d2 - B) ->
  let v := ((d2 - C) - (d1 - A)) / (((d2 - C) - (d1 - A)) + ((d1 - C) - (d2 - B))) in
  optimal A B C d1 d2 (1 - v) v.
Proof.
  intros HE Hv H1 H3. cbv zeta. set (v := _ / _). set (E := A + B - 2 * C) in *.
  assert (EE : v * E == (d2 - C) - (d1 - A)) by (unfold v, E; field; unfold E in HE; lra).
  assert (V : 0 <= v <= 1) by (unfold v; apply div_bounds; [unfold E in HE; lra|assumption|assumption]).
  clearbody v. unfold optimal.
  (* the two components of the gradient agree along the edge *)
  assert (G0 : (d1 - (1 - v) * A - v * C) == (d2 - (1 - v) * C - v * B)).
  { unfold E in EE. lra. }
  (* and point outwards *)
  assert (G : 0 <= (d1 - (1 - v) * A - v * C) * E).
  { setoid_replace ((d1 - (1 - v) * A - v * C) * E) with ((d1 - A) * E + (v * E) * (A - C)) by ring. rewrite EE. unfold E. lra. }
  assert (G' : 0 <= d1 - (1 - v) * A - v * C).
  { apply Qnot_lt_le. intro F. assert (0 < (- (d1 - (1 - v) * A - v * C)) * E) by (apply Qmult_lt_0_compat; lra). lra. }
  set (g := d1 - (1 - v) * A - v * C) in *. rewrite <- G0. clear - G' V. repeat split; try lra; nra.
Qed.

(** In the interior the gradient vanishes. *)
Lemma opt_in A B C d1 d2 : 0 < A * B - C * C ->
  0 < d1 * (d2 - C) - (d1 - A) * d2 -> 0 < (d1 - C) * d2 - d1 * (d2 - B) -> 0 < (d1 - A) * (d2 - B) - (d1 - C) * (d2 - C) ->
  let va := (d1 - A) * (d2 - B) - (d1 - C) * (d2 - C) in
  let vb := (d1 - C) * d2 - d1 * (d2 - B) in
  let vc := d1 * (d2 - C) - (d1 - A) * d2 in
  let denom := 1 / (va + vb + vc) in
  optimal A B C d1 d2 (vb * denom) (vc * denom).
Proof.
  intros HD Hc Hb Ha. cbv zeta. set (va := (d1 - A) * _ - _) in *. set (vb := (d1 - C) * d2 - _) in *. set (vc := d1 * _ - _) in *.
  assert (ES : va + vb + vc == A * B - C * C) by (unfold va, vb, vc; ring).
  set (S := va + vb + vc) in *. assert (HS : 0 < S) by (rewrite ES; exact HD).
  set (v := vb * (1 / S)). set (w := vc * (1 / S)).
  assert (Ev : v * S == vb) by (unfold v; field; lra). assert (Ew : w * S == vc) by (unfold w; field; lra).
  assert (V0 : 0 <= v) by (unfold v; apply Qmult_le_0_compat; [lra|apply Qle_shift_div_l; lra]).
  assert (W0 : 0 <= w) by (unfold w; apply Qmult_le_0_compat; [lra|apply Qle_shift_div_l; lra]).
  assert (VW : v + w <= 1).
  { apply Qnot_lt_le. intro F. assert (0 < (v + w - 1) * S) by (apply Qmult_lt_0_compat; lra).
    assert ((v + w - 1) * S == - va) by (unfold S in *; lra). lra. }
  assert (G1 : d1 - v * A - w * C == 0).
  { assert (K : (d1 - v * A - w * C) * S == 0).
    { setoid_replace ((d1 - v * A - w * C) * S) with (d1 * S - (v * S) * A - (w * S) * C) by ring. rewrite Ev, Ew, ES. unfold vb, vc. ring. }
    apply Qmult_integral in K as [K|K]; [exact K|lra]. }
  assert (G2 : d2 - v * C - w * B == 0).
  { assert (K : (d2 - v * C - w * B) * S == 0).
    { setoid_replace ((d2 - v * C - w * B) * S) with (d2 * S - (v * S) * C - (w * S) * B) by ring. rewrite Ev, Ew, ES. unfold vb, vc. ring. }
    apply Qmult_integral in K as [K|K]; [exact K|lra]. }
  unfold optimal. rewrite G1, G2. repeat split; lra.
Qed.

(** If the point is beyond the edge [ab] and behind its first end, it is beyond the edge
    [ac] as well, and not beyond the far end of that edge unless in front of it. *)
Lemma behind A B C d1 d2 : 0 < A -> 0 < B -> 0 < A * B - C * C ->
  d1 * (d2 - C) - (d1 - A) * d2 <= 0 -> d1 < 0 -> 0 < d2 ->
  (d1 - C) * d2 - d1 * (d2 - B) <= 0 /\ (0 <= d2 - B -> d1 - C <= d2 - B).
Proof.
  intros HA HB HD Hv H1 H2.
  assert (E : A * d2 <= C * d1) by lra.
  assert (P : 0 < A * d2) by (apply Qmult_lt_0_compat; assumption).
  assert (HC : C < 0).
  { apply Qnot_le_lt. intro F. assert (0 <= C * - d1) by (apply Qmult_le_0_compat; lra). lra. }
  split.
  - (* A * vb <= (A B - C^2) d1 < 0 *)
    apply Qnot_lt_le. intro F.
    assert (0 < A * ((d1 - C) * d2 - d1 * (d2 - B))) by (apply Qmult_lt_0_compat; assumption).
    assert (0 <= (- C) * (C * d1 - A * d2)) by (apply Qmult_le_0_compat; lra).
    assert (0 < (A * B - C * C) * - d1) by (apply Qmult_lt_0_compat; lra). lra.
  - intro F. assert (D : d1 < C).
    { apply Qnot_le_lt. intro G.
      assert (0 <= A * (d2 - B)) by (apply Qmult_le_0_compat; lra).
      assert (0 <= (d1 - C) * - C) by (apply Qmult_le_0_compat; lra). lra. }
    lra.
Qed.

(** If none of the six regions at corners and edges applies, the point is not beyond the
    first edge. *)
Definition no_region (A B C d1 d2 : Q) : Prop :=
  ~ (d1 <= 0 /\ d2 <= 0)
  /\ ~ (0 <= d1 - A /\ d2 - C <= d1 - A)
  /\ ~ (0 <= d2 - B /\ d1 - C <= d2 - B)
  /\ ~ (d1 * (d2 - C) - (d1 - A) * d2 <= 0 /\ 0 <= d1 /\ d1 - A <= 0)
  /\ ~ ((d1 - C) * d2 - d1 * (d2 - B) <= 0 /\ 0 <= d2 /\ d2 - B <= 0)
  /\ ~ ((d1 - A) * (d2 - B) - (d1 - C) * (d2 - C) <= 0 /\ 0 <= (d2 - C) - (d1 - A) /\ 0 <= (d1 - C) - (d2 - B)).

Lemma no_region_vc A B C d1 d2 : 0 < A -> 0 < B -> 0 < A + B - 2 * C -> 0 < A * B - C * C ->
  no_region A B C d1 d2 -> 0 < d1 * (d2 - C) - (d1 - A) * d2.
Proof.
  intros HA HB HE HD (N1 & N2 & N3 & N4 & N5 & N6). apply Qnot_le_lt. intro Hv.
  destruct (Qlt_le_dec d1 0) as [L|L].
  - destruct (Qlt_le_dec 0 d2) as [L2|L2]; [|apply N1; lra].
    destruct (behind A B C d1 d2 HA HB HD Hv L L2) as [K1 K2].
    destruct (Qlt_le_dec (d2 - B) 0) as [L3|L3]; [apply N5; lra|]. apply N3. split; [exact L3|]. apply K2. exact L3.
  - destruct (Qlt_le_dec 0 (d1 - A)) as [L1|L1]; [|apply N4; lra].
    destruct (Qlt_le_dec (d1 - A) (d2 - C)) as [L2|L2]; [|apply N2; lra].
    destruct (behind A (A + B - 2 * C) (A - C) (A - d1) ((d2 - C) - (d1 - A)) HA HE) as [K1 K2].
    + setoid_replace (A * (A + B - 2 * C) - (A - C) * (A - C)) with (A * B - C * C) by ring. exact HD.
    + setoid_replace ((A - d1) * (d2 - C - (d1 - A) - (A - C)) - (A - d1 - A) * (d2 - C - (d1 - A))) with (d1 * (d2 - C) - (d1 - A) * d2) by ring. exact Hv.
    + lra.
    + lra.
    + assert (K1' : (d1 - A) * (d2 - B) - (d1 - C) * (d2 - C) <= 0).
      { match type of K1 with ?u <= 0 => setoid_replace ((d1 - A) * (d2 - B) - (d1 - C) * (d2 - C)) with u by ring end. exact K1. }
      destruct (Qlt_le_dec ((d1 - C) - (d2 - B)) 0) as [L3|L3].
      * apply N3. assert (K2' := K2 ltac:(lra)). lra.
      * apply N6. lra.
Qed.

Lemma no_region_swap A B C d1 d2 : no_region A B C d1 d2 -> no_region B A C d2 d1.
Proof.
  intros (N1 & N2 & N3 & N4 & N5 & N6). unfold no_region.
  repeat split; intro K; [apply N1|apply N3|apply N2|apply N5|apply N4|apply N6]; lra.
Qed.

Lemma no_region_rotate A B C d1 d2 : no_region A B C d1 d2 ->
  no_region (A + B - 2 * C) A (A - C) ((d2 - C) - (d1 - A)) (A - d1).
Proof.
  intros (N1 & N2 & N3 & N4 & N5 & N6). unfold no_region.
  repeat split; intro K; [apply N2|apply N3|apply N1|apply N6|apply N4|apply N5]; lra.
Qed.

Lemma no_region_inside A B C d1 d2 : 0 < A -> 0 < B -> 0 < A + B - 2 * C -> 0 < A * B - C * C ->
  no_region A B C d1 d2 ->
  0 < d1 * (d2 - C) - (d1 - A) * d2 /\ 0 < (d1 - C) * d2 - d1 * (d2 - B) /\ 0 < (d1 - A) * (d2 - B) - (d1 - C) * (d2 - C).
Proof.
  intros HA HB HE HD HN. split; [apply (no_region_vc A B C); assumption|]. split.
  - assert (K := no_region_vc B A C d2 d1 HB HA ltac:(lra) ltac:(lra) (no_region_swap _ _ _ _ _ HN)). lra.
  - assert (K := no_region_vc (A + B - 2 * C) A (A - C) ((d2 - C) - (d1 - A)) (A - d1) HE HA ltac:(lra) ltac:(lra) (no_region_rotate A B C d1 d2 HN)). lra.
Qed.

(** From scalar products to points. *)
Lemma scalars_optimal t p v w q :
  let ab := sub3 (t3p2 t) (t3p1 t) in let ac := sub3 (t3p3 t) (t3p1 t) in let ap := sub3 p (t3p1 t) in
  optimal (dot3 ab ab) (dot3 ac ac) (dot3 ab ac) (dot3 ab ap) (dot3 ac ap) v w ->
  x3 q == x3 (t3p1 t) + v * x3 ab + w * x3 ac -> y3 q == y3 (t3p1 t) + v * y3 ab + w * y3 ac -> z3 q == z3 (t3p1 t) + v * z3 ab + w * z3 ac ->
  in_triangle3 t q /\ forall x, in_triangle3 t x -> dist2_3 p q <= dist2_3 p x.
Proof.
  destruct t as [[ax ay az] [bx by_ bz] [cx cy cz]], p as [px py pz], q as [qx qy qz].
  unfold in_triangle3, mean3, dist2_3. cbn [t3p1 t3p2 t3p3 sub3 dot3 x3 y3 z3]. unfold dot3. cbn [x3 y3 z3].
  set (ux := bx - ax). set (uy := by_ - ay). set (uz := bz - az). set (vx := cx - ax). set (vy := cy - ay). set (vz := cz - az).
  set (wx := px - ax). set (wy := py - ay). set (wz := pz - az).
  intros (V & W & VW & Ga & Gb & Gc) Qx Qy Qz. split.
  - exists (1 - v - w), v, w. unfold ux, uy, uz, vx, vy, vz in *. repeat split; lra.
  - intros [xx xy xz] (l1 & l2 & l3 & (L & Lx & Ly & Lz) & P1 & P2 & P3). cbn [x3 y3 z3] in *.
    (* (p - q) . (x - q) is a mean of the three values, hence not positive *)
    match type of Ga with ?g <= 0 => set (ga := g) in Ga end.
    match type of Gb with ?g <= 0 => set (gb := g) in Gb end.
    match type of Gc with ?g <= 0 => set (gc := g) in Gc end.
    assert (K : (px - qx) * (xx - qx) + (py - qy) * (xy - qy) + (pz - qz) * (xz - qz) == l1 * ga + l2 * gb + l3 * gc).
    { rewrite Lx, Ly, Lz, Qx, Qy, Qz.
      assert (E1 : l1 == 1 - l2 - l3) by lra. rewrite E1.
      unfold ga, gb, gc, ux, uy, uz, vx, vy, vz, wx, wy, wz, sub3. cbn [x3 y3 z3]. ring. }
    assert (K' : l1 * ga + l2 * gb + l3 * gc <= 0).
    { assert (0 <= l1 * - ga) by (apply Qmult_le_0_compat; lra). assert (0 <= l2 * - gb) by (apply Qmult_le_0_compat; lra).
      assert (0 <= l3 * - gc) by (apply Qmult_le_0_compat; lra). lra. }
    rewrite <- K in K'. clear - K'.
    assert (S : forall u, 0 <= u * u) by (intro u; nra).
    assert (S1 := S (xx - qx)). assert (S2 := S (xy - qy)). assert (S3 := S (xz - qz)). lra.
Qed.

Lemma lagrange ux uy uz vx vy vz :
  (ux * ux + uy * uy + uz * uz) * (vx * vx + vy * vy + vz * vz) - (ux * vx + uy * vy + uz * vz) * (ux * vx + uy * vy + uz * vz)
  == (uy * vz - uz * vy) * (uy * vz - uz * vy) + (ux * vz - uz * vx) * (ux * vz - uz * vx) + (ux * vy - uy * vx) * (ux * vy - uy * vx).
Proof. ring. Qed.

Lemma sum_squares_pos a b c : ~ (a == 0 /\ b == 0 /\ c == 0) -> 0 < a * a + b * b + c * c.
Proof.
  intro H. apply Qnot_le_lt. intro F. apply H.
  assert (S : forall u, 0 <= u * u) by (intro u; nra).
  assert (Z : forall u, u * u == 0 -> u == 0) by (intros u E; apply Qmult_integral in E; tauto).
  assert (S1 := S a). assert (S2 := S b). assert (S3 := S c).
  repeat split; apply Z; lra.
Qed.

Lemma Qleb_false a b : Qle_bool a b = false -> b < a.
Proof. intro H. apply Qnot_le_lt. intro F. apply Qle_bool_iff in F. congruence. Qed.
Lemma Qleb_true a b : Qle_bool a b = true -> a <= b.
Proof. apply Qle_bool_iff. Qed.

Lemma and2 b1 b2 (P1 P2 : Prop) : (b1 = true -> P1) -> (b1 = false -> ~ P1) -> (b2 = true -> P2) -> (b2 = false -> ~ P2) ->
  ((b1 && b2)%bool = true -> P1 /\ P2) /\ ((b1 && b2)%bool = false -> ~ (P1 /\ P2)).
Proof. destruct b1, b2; cbn; intros; split; intros; try discriminate; intuition. Qed.

Lemma leb_dec a b : (Qle_bool a b = true -> a <= b) /\ (Qle_bool a b = false -> ~ a <= b).
Proof. split; [apply Qleb_true|]. intros H F. apply Qleb_false in H. lra. Qed.

Theorem closest_point_ok t p : proper_triangle3 t ->
  in_triangle3 t (closest_point t p) /\ forall x, in_triangle3 t x -> dist2_3 p (closest_point t p) <= dist2_3 p x.
Proof.
  intro HT.
  set (ab := sub3 (t3p2 t) (t3p1 t)). set (ac := sub3 (t3p3 t) (t3p1 t)). set (ap := sub3 p (t3p1 t)).
  set (A := dot3 ab ab). set (B := dot3 ac ac). set (C := dot3 ab ac). set (d1 := dot3 ab ap). set (d2 := dot3 ac ap).
  assert (HD : 0 < A * B - C * C).
  { unfold A, B, C, dot3. rewrite lagrange. apply sum_squares_pos. exact HT. }
  assert (S : forall u, 0 <= u * u) by (intro u; nra).
  assert (HA : 0 < A).
  { apply Qnot_le_lt. intro F. assert (0 <= B) by (unfold B, dot3; assert (X := S (x3 ac)); assert (Y := S (y3 ac)); assert (Z := S (z3 ac)); lra).
    assert (0 <= (- A) * B) by (apply Qmult_le_0_compat; lra). assert (X := S C). lra. }
  assert (HB : 0 < B).
  { apply Qnot_le_lt. intro F. assert (0 <= A * - B) by (apply Qmult_le_0_compat; lra). assert (X := S C). lra. }
  assert (HE : 0 < A + B - 2 * C).
  { (* A E = D + (A - C)^2 *)
    apply Qnot_le_lt. intro F. assert (0 <= A * - (A + B - 2 * C)) by (apply Qmult_le_0_compat; lra). assert (X := S (A - C)). lra. }
  assert (E3 : dot3 ab (sub3 p (t3p2 t)) == d1 - A) by (unfold d1, A, ap, ab, dot3, sub3; cbn [x3 y3 z3]; ring).
  assert (E4 : dot3 ac (sub3 p (t3p2 t)) == d2 - C) by (unfold d2, C, ap, ab, ac, dot3, sub3; cbn [x3 y3 z3]; ring).
  assert (E5 : dot3 ab (sub3 p (t3p3 t)) == d1 - C) by (unfold d1, C, ap, ab, ac, dot3, sub3; cbn [x3 y3 z3]; ring).
  assert (E6 : dot3 ac (sub3 p (t3p3 t)) == d2 - B) by (unfold d2, B, ap, ab, ac, dot3, sub3; cbn [x3 y3 z3]; ring).
  unfold closest_point. cbv zeta. fold ab ac ap. fold d1 d2.
  set (d3 := dot3 ab (sub3 p (t3p2 t))) in *. set (d4 := dot3 ac (sub3 p (t3p2 t))) in *.
  set (d5 := dot3 ab (sub3 p (t3p3 t))) in *. set (d6 := dot3 ac (sub3 p (t3p3 t))) in *.
  assert (OK : forall v w q, optimal A B C d1 d2 v w ->
     x3 q == x3 (t3p1 t) + v * x3 ab + w * x3 ac -> y3 q == y3 (t3p1 t) + v * y3 ab + w * y3 ac -> z3 q == z3 (t3p1 t) + v * z3 ab + w * z3 ac ->
     in_triangle3 t q /\ forall x, in_triangle3 t x -> dist2_3 p q <= dist2_3 p x).
  { intros v w q HO X Y Z. apply (scalars_optimal t p v w q); assumption. }
  destruct (leb_dec d1 0) as [T1 F1]. destruct (leb_dec d2 0) as [T2 F2].
  destruct (Qle_bool d1 0 && Qle_bool d2 0)%bool eqn:R1.
  { apply andb_prop in R1 as [R1 R1']. apply (OK 0 0); [apply opt_a; auto| | |]; ring. }
  assert (N1 : ~ (d1 <= 0 /\ d2 <= 0)) by (apply andb_false_iff in R1 as [R|R]; [apply F1 in R|apply F2 in R]; tauto).
  clear R1 T1 F1 T2 F2.
  destruct (leb_dec 0 d3) as [T1 F1]. destruct (leb_dec d4 d3) as [T2 F2].
  destruct (Qle_bool 0 d3 && Qle_bool d4 d3)%bool eqn:R1.
  { apply andb_prop in R1 as [R1 R1']. apply T1 in R1. apply T2 in R1'. apply (OK 1 0); [apply opt_b; lra| | |]; unfold ab, ac, sub3; cbn [x3 y3 z3]; ring. }
  assert (N2 : ~ (0 <= d3 /\ d4 <= d3)) by (apply andb_false_iff in R1 as [R|R]; [apply F1 in R|apply F2 in R]; tauto).
  clear R1 T1 F1 T2 F2.
  destruct (leb_dec 0 d6) as [T1 F1]. destruct (leb_dec d5 d6) as [T2 F2].
  destruct (Qle_bool 0 d6 && Qle_bool d5 d6)%bool eqn:R1.
  { apply andb_prop in R1 as [R1 R1']. apply T1 in R1. apply T2 in R1'. apply (OK 0 1); [apply opt_c; lra| | |]; unfold ab, ac, sub3; cbn [x3 y3 z3]; ring. }
  assert (N3 : ~ (0 <= d6 /\ d5 <= d6)) by (apply andb_false_iff in R1 as [R|R]; [apply F1 in R|apply F2 in R]; tauto).
  clear R1 T1 F1 T2 F2.
  set (vc := d1 * d4 - d3 * d2). assert (EC : vc == d1 * (d2 - C) - (d1 - A) * d2) by (unfold vc; rewrite E3, E4; ring).
  destruct (leb_dec vc 0) as [T1 F1]. destruct (leb_dec 0 d1) as [T2 F2]. destruct (leb_dec d3 0) as [T3 F3].
  destruct (Qle_bool vc 0 && Qle_bool 0 d1 && Qle_bool d3 0)%bool eqn:R1.
  { apply andb_prop in R1 as [R1 R3]. apply andb_prop in R1 as [R1 R2]. apply T1 in R1. apply T2 in R2. apply T3 in R3.
    apply (OK (d1 / (d1 - (d1 - A))) 0); [apply opt_ab; lra| | |]; cbn [add3 scale3 x3 y3 z3]; rewrite E3; ring. }
  assert (N4 : ~ (vc <= 0 /\ 0 <= d1 /\ d3 <= 0)).
  { apply andb_false_iff in R1 as [R|R]; [apply andb_false_iff in R as [R|R]; [apply F1 in R|apply F2 in R]|apply F3 in R]; tauto. }
  clear R1 T1 F1 T2 F2 T3 F3.
  set (vb := d5 * d2 - d1 * d6). assert (EB : vb == (d1 - C) * d2 - d1 * (d2 - B)) by (unfold vb; rewrite E5, E6; ring).
  destruct (leb_dec vb 0) as [T1 F1]. destruct (leb_dec 0 d2) as [T2 F2]. destruct (leb_dec d6 0) as [T3 F3].
  destruct (Qle_bool vb 0 && Qle_bool 0 d2 && Qle_bool d6 0)%bool eqn:R1.
  { apply andb_prop in R1 as [R1 R3]. apply andb_prop in R1 as [R1 R2]. apply T1 in R1. apply T2 in R2. apply T3 in R3.
    apply (OK 0 (d2 / (d2 - (d2 - B)))); [apply opt_ac; lra| | |]; cbn [add3 scale3 x3 y3 z3]; rewrite E6; ring. }
  assert (N5 : ~ (vb <= 0 /\ 0 <= d2 /\ d6 <= 0)).
  { apply andb_false_iff in R1 as [R|R]; [apply andb_false_iff in R as [R|R]; [apply F1 in R|apply F2 in R]|apply F3 in R]; tauto. }
  clear R1 T1 F1 T2 F2 T3 F3.
  set (va := d3 * d6 - d5 * d4). assert (EA : va == (d1 - A) * (d2 - B) - (d1 - C) * (d2 - C)) by (unfold va; rewrite E3, E4, E5, E6; ring).
  destruct (leb_dec va 0) as [T1 F1]. destruct (leb_dec 0 (d4 - d3)) as [T2 F2]. destruct (leb_dec 0 (d5 - d6)) as [T3 F3].
  destruct (Qle_bool va 0 && Qle_bool 0 (d4 - d3) && Qle_bool 0 (d5 - d6))%bool eqn:R1.
  { apply andb_prop in R1 as [R1 R3]. apply andb_prop in R1 as [R1 R2]. apply T1 in R1. apply T2 in R2. apply T3 in R3.
    assert (O := opt_bc A B C d1 d2 HE ltac:(lra) ltac:(lra) ltac:(lra)). cbv zeta in O.
    refine (OK _ _ _ O _ _ _); cbn [add3 scale3 x3 y3 z3]; rewrite E3, E4, E5, E6; unfold ab, ac, sub3; cbn [x3 y3 z3]; ring. }
  assert (N6 : ~ (va <= 0 /\ 0 <= d4 - d3 /\ 0 <= d5 - d6)).
  { apply andb_false_iff in R1 as [R|R]; [apply andb_false_iff in R as [R|R]; [apply F1 in R|apply F2 in R]|apply F3 in R]; tauto. }
  clear R1 T1 F1 T2 F2 T3 F3.
  assert (NR : no_region A B C d1 d2).
  { unfold no_region. rewrite <- E3, <- E4, <- E5, <- E6.
    repeat split; intro K; [apply N1|apply N2|apply N3|apply N4|apply N5|apply N6]; unfold vc, vb, va; lra. }
  destruct (no_region_inside A B C d1 d2 HA HB HE HD NR) as (PC & PB & PA).
  assert (O := opt_in A B C d1 d2 HD PC PB PA). cbv zeta in O.
  refine (OK _ _ _ O _ _ _); cbn [add3 scale3 x3 y3 z3]; rewrite EA, EB, EC; ring.
Qed.
