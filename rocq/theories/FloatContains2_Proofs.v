(** Proofs about the test with [f64] whether a point belongs to a triangle. *)
From Coq Require Import ZArith QArith Qabs Qreals Reals Lra Lia Bool List Psatz.
From Flocq Require Import Core IEEE754.BinarySingleNaN.
From Verif Require Import Geometry_Model Geometry_Spec Geometry_Proofs GeometryContains_Proofs Float_Model Float_Spec Float_Proofs Float_InSphere_Proofs Float_Contains_Proofs FloatFlip_Model FloatFlip_Spec
  FloatSolve_Proofs FloatFlip_Proofs FloatLine_Proofs FloatSolve2_Proofs.
Import ListNotations.
Open Scope R_scope.

Definition near_sign (v : f64) (l : Q) : Prop := try_sign v triangle_epsilon = Imprecise \/ try_sign v triangle_epsilon = Value (sign_of l) /\ sign_of l <> Zero.

(** The signs of the three values. *)
Definition by_signs (values : list f64) : answer bool := bind (any_negative64 values) (fun outside => if outside then Value false else all_positive64 values).
Lemma by_signs_ok a b c l1 l2 l3 : near_sign a l2 -> near_sign b l3 -> near_sign c l1 ->
  by_signs [a; b; c] = Imprecise \/ by_signs [a; b; c] = Value true /\ (0 < l1 /\ 0 < l2 /\ 0 < l3)%Q \/ by_signs [a; b; c] = Value false /\ (l1 < 0 \/ l2 < 0 \/ l3 < 0)%Q.
Proof.
  intros A B C. unfold by_signs. cbn [any_negative64 all_positive64]. unfold nonzero_sign64.
  destruct A as [-> | [-> A]], B as [-> | [-> B]], C as [-> | [-> C]]; revert A B C || revert A B || revert A C || revert B C || revert A || revert B || revert C || idtac;
  try (destruct (sign_cases l1) as [[-> H1] | [[-> H1] | [-> H1]]]); try (destruct (sign_cases l2) as [[-> H2] | [[-> H2] | [-> H2]]]); try (destruct (sign_cases l3) as [[-> H3] | [[-> H3] | [-> H3]]]);
    intros; try congruence; cbn [bind panic_if_zero unwrap]; auto 8.
Qed.

Lemma weights2 a0 a1 a2 b0 b1 b2 (l1 l2 l3 : Q) : row2_ok a0 a1 a2 -> row2_ok b0 b1 b2 ->
  val a0 * Q2R l2 + val a1 * Q2R l3 = val a2 -> val b0 * Q2R l2 + val b1 * Q2R l3 = val b2 -> (l1 + l2 + l3 == 1)%Q ->
  forall D, D = Rabs (det2 a0 a1 b0 b1) -> / 8796093022208 <= D * D * Rabs (Q2R l1) -> / 8796093022208 <= D * D * Rabs (Q2R l2) -> / 8796093022208 <= D * D * Rabs (Q2R l3) ->
  exists r s, solve64 2 [[a0; a1; a2]; [b0; b1; b2]] = Value [r; s] /\ near_sign r l2 /\ near_sign s l3 /\ near_sign (sub one (add r s)) l1.
Proof.
  intros Ha Hb S1 S2 Sum D ED K1 K2 K3.
  assert (HD : 0 <= D) by (rewrite ED; apply Rabs_pos).
  pose proof Ha as ((_ & A0) & _ & (_ & A2)). pose proof Hb as ((_ & B0) & _ & (_ & B2)).
  destruct (cramers2 _ _ _ _ _ _ Ha Hb _ _ _ _ 1 S1 S2 A2 B2) as (L2 & _). rewrite <- ED in L2.
  destruct (cramers2 _ _ _ _ _ _ Ha Hb (val a0) (val b0) 1 0 1 ltac:(ring) ltac:(ring) A0 B0) as (D2 & _). rewrite <- ED, Rabs_R1 in D2.
  assert (D42 : / 17592186044416 <= D). { assert (D * (D * Rabs (Q2R l2)) <= D * 2) by (apply Rmult_le_compat_l; lra). lra. }
  assert (Hdet : 128 * u <= Rabs (det2 a0 a1 b0 b1)) by (rewrite <- ED, u_value; lra).
  destruct (solve2_ok _ _ _ _ _ _ _ _ Ha Hb Hdet S1 S2) as (r & s & E & F1 & F2 & C). cbv zeta in C. rewrite <- ED in C.
  set (n := 1 + Rabs (val r) + Rabs (val s)) in C. destruct C as (N & E1 & E2).
  pose proof (Rabs_pos (val r)). pose proof (Rabs_pos (val s)).
  assert (N1 : 1 + Rabs (val r) + Rabs (val s) <= n) by (unfold n; lra). clearbody n.
  assert (SumR : Q2R l1 + Q2R l2 + Q2R l3 = 1) by (rewrite <- !Q2R_plus, (Qeq_eqR _ _ Sum); unfold Q2R; cbn; lra).
  assert (Nb : n <= bpow radix2 800).
  { apply Rle_trans with (bpow radix2 60); [| apply bpow_le; lia]. change (bpow radix2 60) with 1152921504606846976.
    assert (/ 17592186044416 * n <= D * n) by (apply Rmult_le_compat_r; lra). lra. }
  destruct (one_sub_ok r s (Q2R l1) (Q2R l2) (Q2R l3) D 24 F1 F2 SumR ltac:(lra) n N1 Nb E1 E2) as (F4 & E4). replace (2 * 24 + 24) with 72 in E4 by lra.
  assert (UN : u * (D * n) <= u * 12) by (apply Rmult_le_compat_l; [pose proof u_small; lra | exact N]). rewrite u_value in *.
  assert (X : forall v l, D * Rabs (v - l) <= 72 * / 9007199254740992 * n -> / 8796093022208 <= D * D * Rabs l -> D * D * Rabs (v - l) < D * D * Rabs l).
  { intros v l A B. apply Rlt_le_trans with (/ 8796093022208); [| exact B]. rewrite Rmult_assoc. apply Rle_lt_trans with (D * (72 * / 9007199254740992 * n)); [apply Rmult_le_compat_l; assumption |]. lra. }
  assert (DD : 0 < D * D) by (apply Rmult_lt_0_compat; lra).
  exists r, s. split; [exact E |]. split; [| split].
  - apply (try_near r l2 (D * D) F1 DD). apply X; [lra | exact K2].
  - apply (try_near s l3 (D * D) F2 DD). apply X; [lra | exact K3].
  - apply (try_near _ l1 (D * D) F4 DD). apply X; [exact E4 | exact K1].
Qed.

Definition eq2 (p q : point2) : Prop := (x2 p == x2 q /\ y2 p == y2 q)%Q.
Lemma lift_point2_ok p P : represents2 p P -> exists P', lift_point2 p = Value P' /\ eq2 P' P.
Proof.
  intros (A & B). destruct (represents_lift _ _ A) as (x & X & Ex). destruct (represents_lift _ _ B) as (y & Y & Ey).
  exists (P2 x y). unfold lift_point2. rewrite X, Y. split; [reflexivity |]. split; assumption.
Qed.

Lemma fallback2_ok T p T' p' : eq2 (t2p1 T') (t2p1 T) -> eq2 (t2p2 T') (t2p2 T) -> eq2 (t2p3 T') (t2p3 T) -> eq2 p' p -> (~ area2 T == 0)%Q ->
  (strictly_inside2 T p -> contains2 T' p' = Some true) /\ (strictly_outside2 T p -> contains2 T' p' = Some false).
Proof.
  intros (A1 & A2) (B1 & B2) (C1 & C2) (X1 & X2) V.
  assert (P : (~ area2 T' == 0)%Q). { intro P. apply V. unfold area2 in *. rewrite A1, A2, B1, B2, C1, C2 in P. exact P. }
  assert (M : forall l1 l2 l3, mean2 T l1 l2 l3 p -> mean2 T' l1 l2 l3 p').
  { intros l1 l2 l3 (S & M1 & M2). repeat split; [exact S | |]; rewrite ?A1, ?A2, ?B1, ?B2, ?C1, ?C2, ?X1, ?X2; assumption. }
  destruct (contains2_ok T' p' P) as (I & O & _). split.
  - intros (l1 & l2 & l3 & H & K). apply I. exists l1, l2, l3. split; [apply M; exact H | exact K].
  - intros (l1 & l2 & l3 & H & K). apply O. exists l1, l2, l3. split; [apply M; exact H | exact K].
Qed.

Theorem contains2_decided t p T P l1 l2 l3 : represents_triangle2 t T -> represents2 p P -> unit_triangle2 T -> unit_square P -> mean2 T l1 l2 l3 P ->
  clear (1 # 2 ^ 43) (area2 T) l1 -> clear (1 # 2 ^ 43) (area2 T) l2 -> clear (1 # 2 ^ 43) (area2 T) l3 ->
  (strictly_inside2 T P /\ contains2_64 t p = Value true) \/ (strictly_outside2 T P /\ contains2_64 t p = Value false).
Proof.
  intros ((P1x & P1y) & (P2x & P2y) & (P3x & P3y)) (X & Y) ((U1x & U1y) & (U2x & U2y) & (U3x & U3y)) (Vx & Vy) M K1 K2 K3. cbn [x2 y2] in *.
  pose proof (clear_nonzero _ _ _ K1) as (V & N1). pose proof (clear_nonzero _ _ _ K2) as (_ & N2). pose proof (clear_nonzero _ _ _ K3) as (_ & N3).
  assert (Side : strictly_inside2 T P \/ strictly_outside2 T P).
  { destruct (sign_cases l1) as [[_ H1] | [[_ H1] | [_ H1]]]; [| right; exists l1, l2, l3; tauto | contradiction]. destruct (sign_cases l2) as [[_ H2] | [[_ H2] | [_ H2]]]; [| right; exists l1, l2, l3; tauto | contradiction].
    destruct (sign_cases l3) as [[_ H3] | [[_ H3] | [_ H3]]]; [| right; exists l1, l2, l3; tauto | contradiction]. left. exists l1, l2, l3. tauto. }
  set (exact2 := bind (lift_point2 (ft21 t)) (fun p1 => bind (lift_point2 (ft22 t)) (fun p2 => bind (lift_point2 (ft23 t)) (fun p3 => bind (lift_point2 p) (fun p => unwrap (contains2 (T2 p1 p2 p3) p)))))).
  assert (Exact : (strictly_inside2 T P /\ exact2 = Value true) \/ (strictly_outside2 T P /\ exact2 = Value false)).
  { unfold exact2. destruct (lift_point2_ok (ft21 t) (t2p1 T) (conj P1x P1y)) as (A & -> & EA). destruct (lift_point2_ok (ft22 t) (t2p2 T) (conj P2x P2y)) as (B & -> & EB).
    destruct (lift_point2_ok (ft23 t) (t2p3 T) (conj P3x P3y)) as (C & -> & EC). destruct (lift_point2_ok p P (conj X Y)) as (D & -> & ED). cbn [bind].
    destruct (fallback2_ok T P (T2 A B C) D EA EB EC ED V) as (I & O). destruct Side as [S | S]; [left; rewrite (I S) | right; rewrite (O S)]; (split; [exact S | reflexivity]). }
  destruct (ok_diff _ _ _ _ P2x P1x U2x U1x) as (Ox2 & Ex2). destruct (ok_diff _ _ _ _ P2y P1y U2y U1y) as (Oy2 & Ey2).
  destruct (ok_diff _ _ _ _ P3x P1x U3x U1x) as (Ox3 & Ex3). destruct (ok_diff _ _ _ _ P3y P1y U3y U1y) as (Oy3 & Ey3).
  destruct (ok_diff _ _ _ _ X P1x Vx U1x) as (Ocx & Ecx). destruct (ok_diff _ _ _ _ Y P1y Vy U1y) as (Ocy & Ecy).
  pose proof M as (Sum & Mx & My).
  assert (SumR : Q2R l1 = 1 - Q2R l2 - Q2R l3).
  { apply Qeq_eqR in Sum. rewrite !Q2R_plus in Sum. replace (Q2R 1) with 1 in Sum by (unfold Q2R; cbn; lra). lra. }
  assert (Eq : forall a0 a1 a2 p1 p2 p3 q, val a0 = Q2R p2 - Q2R p1 -> val a1 = Q2R p3 - Q2R p1 -> val a2 = Q2R q - Q2R p1 ->
    (q == l1 * p1 + l2 * p2 + l3 * p3)%Q -> val a0 * Q2R l2 + val a1 * Q2R l3 = val a2).
  { intros a0 a1 a2 p1 p2 p3 q E0 E1 E2 H. apply Qeq_eqR in H. rewrite !Q2R_plus, !Q2R_mult in H. rewrite E0, E1, E2. rewrite SumR in H. lra. }
  assert (Det : Rabs (det2 (sub (gx (ft22 t)) (gx (ft21 t))) (sub (gx (ft23 t)) (gx (ft21 t))) (sub (gy (ft22 t)) (gy (ft21 t))) (sub (gy (ft23 t)) (gy (ft21 t)))) = Rabs (Q2R (area2 T))).
  { f_equal. unfold det2. rewrite Ex2, Ex3, Ey2, Ey3. unfold area2. rewrite ?Q2R_minus, ?Q2R_mult, ?Q2R_minus. ring. }
  assert (Abs : forall x l, / 8796093022208 <= x * x * Rabs l -> / 8796093022208 <= Rabs x * Rabs x * Rabs l).
  { intros x l H. rewrite <- Rabs_mult, Rabs_pos_eq by nra. exact H. }
  apply clear_R in K1. apply clear_R in K2. apply clear_R in K3.
  destruct (weights2 _ _ _ _ _ _ l1 l2 l3 (conj Ox2 (conj Ox3 Ocx)) (conj Oy2 (conj Oy3 Ocy)) (Eq _ _ _ _ _ _ _ Ex2 Ex3 Ecx Mx) (Eq _ _ _ _ _ _ _ Ey2 Ey3 Ecy My) Sum _ eq_refl) as (r & s & E & G2 & G3 & G1).
  1-3: rewrite Det; apply Abs; assumption.
  unfold contains2_64. fold exact2. unfold f64_contains2. cbv zeta. unfold fsub2. cbn [gx gy].
  match goal with |- context [solve64 2 ?m] => replace (solve64 2 m) with (Value [r; s]) by (symmetry; exact E) end. cbn [bind].
  fold (by_signs [r; s; sub one (add r s)]).
  destruct (by_signs_ok _ _ _ l1 l2 l3 G2 G3 G1) as [H | [[H K] | [H K]]]; rewrite H; cbn [or_else]; [exact Exact | left | right]; (split; [| reflexivity]); exists l1, l2, l3; tauto.
Qed.
