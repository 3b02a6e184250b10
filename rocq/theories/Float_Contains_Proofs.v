(** Proofs about the containment test with rounding: for coordinates in [1, 2] it answers what exact arithmetic answers. *)
From Coq Require Import ZArith QArith Qreals Reals Lra Lia Bool List Psatz.
From Flocq Require Import Core IEEE754.BinarySingleNaN.
From Verif Require Import Geometry_Model Geometry_Spec Geometry_Proofs GeometryContains_Proofs Float_Model Float_Spec Float_Proofs Float_InSphere_Proofs.
Import ListNotations.
Open Scope R_scope.

Definition h : R := bpow radix2 (-54).

Lemma h_eq : h = / 18014398509481984.
Proof. unfold h. cbn. reflexivity. Qed.

(** Twice the area of a triangle in the unit square is at most 1: a function that is linear in each coordinate is bounded by
    its values at the ends. *)
Definition area (a1 a2 b1 b2 c1 c2 : R) : R := (b1 - a1) * (c2 - a2) - (c1 - a1) * (b2 - a2).
Lemma lin a b M t : 1 <= t <= 2 -> a + b * 1 <= M -> a + b * 2 <= M -> a + b * t <= M.
Proof. intros. nra. Qed.
Lemma area_a1 a1 a2 b1 b2 c1 c2 : 1 <= a1 <= 2 -> area 1 a2 b1 b2 c1 c2 <= 1 -> area 2 a2 b1 b2 c1 c2 <= 1 -> area a1 a2 b1 b2 c1 c2 <= 1.
Proof.
  intros H H1 H2. unfold area in *. replace ((b1 - a1) * (c2 - a2) - (c1 - a1) * (b2 - a2)) with ((b1 * (c2 - a2) - c1 * (b2 - a2)) + ((b2 - a2) - (c2 - a2)) * a1) by ring.
  apply lin; [exact H | |]; lra.
Qed.
Lemma area_a2 a1 a2 b1 b2 c1 c2 : 1 <= a2 <= 2 -> area a1 1 b1 b2 c1 c2 <= 1 -> area a1 2 b1 b2 c1 c2 <= 1 -> area a1 a2 b1 b2 c1 c2 <= 1.
Proof.
  intros H H1 H2. unfold area in *. replace ((b1 - a1) * (c2 - a2) - (c1 - a1) * (b2 - a2)) with (((b1 - a1) * c2 - (c1 - a1) * b2) + ((c1 - a1) - (b1 - a1)) * a2) by ring.
  apply lin; [exact H | |]; lra.
Qed.
Lemma area_b1 a1 a2 b1 b2 c1 c2 : 1 <= b1 <= 2 -> area a1 a2 1 b2 c1 c2 <= 1 -> area a1 a2 2 b2 c1 c2 <= 1 -> area a1 a2 b1 b2 c1 c2 <= 1.
Proof.
  intros H H1 H2. unfold area in *. replace ((b1 - a1) * (c2 - a2) - (c1 - a1) * (b2 - a2)) with ((- a1 * (c2 - a2) - (c1 - a1) * (b2 - a2)) + (c2 - a2) * b1) by ring.
  apply lin; [exact H | |]; lra.
Qed.
Lemma area_b2 a1 a2 b1 b2 c1 c2 : 1 <= b2 <= 2 -> area a1 a2 b1 1 c1 c2 <= 1 -> area a1 a2 b1 2 c1 c2 <= 1 -> area a1 a2 b1 b2 c1 c2 <= 1.
Proof.
  intros H H1 H2. unfold area in *. replace ((b1 - a1) * (c2 - a2) - (c1 - a1) * (b2 - a2)) with (((b1 - a1) * (c2 - a2) + (c1 - a1) * a2) + (- (c1 - a1)) * b2) by ring.
  apply lin; [exact H | |]; lra.
Qed.
Lemma area_c1 a1 a2 b1 b2 c1 c2 : 1 <= c1 <= 2 -> area a1 a2 b1 b2 1 c2 <= 1 -> area a1 a2 b1 b2 2 c2 <= 1 -> area a1 a2 b1 b2 c1 c2 <= 1.
Proof.
  intros H H1 H2. unfold area in *. replace ((b1 - a1) * (c2 - a2) - (c1 - a1) * (b2 - a2)) with (((b1 - a1) * (c2 - a2) + a1 * (b2 - a2)) + (- (b2 - a2)) * c1) by ring.
  apply lin; [exact H | |]; lra.
Qed.
Lemma area_c2 a1 a2 b1 b2 c1 c2 : 1 <= c2 <= 2 -> area a1 a2 b1 b2 c1 1 <= 1 -> area a1 a2 b1 b2 c1 2 <= 1 -> area a1 a2 b1 b2 c1 c2 <= 1.
Proof.
  intros H H1 H2. unfold area in *. replace ((b1 - a1) * (c2 - a2) - (c1 - a1) * (b2 - a2)) with ((- (b1 - a1) * a2 - (c1 - a1) * (b2 - a2)) + (b1 - a1) * c2) by ring.
  apply lin; [exact H | |]; lra.
Qed.
Lemma area_le a1 a2 b1 b2 c1 c2 : 1 <= a1 <= 2 -> 1 <= a2 <= 2 -> 1 <= b1 <= 2 -> 1 <= b2 <= 2 -> 1 <= c1 <= 2 -> 1 <= c2 <= 2 ->
  (b1 - a1) * (c2 - a2) - (c1 - a1) * (b2 - a2) <= 1.
Proof.
  intros A1 A2 B1 B2 C1 C2. change (area a1 a2 b1 b2 c1 c2 <= 1).
  apply area_a1; [exact A1 | |]; (apply area_a2; [exact A2 | |]; (apply area_b1; [exact B1 | |]; (apply area_b2; [exact B2 | |];
    (apply area_c1; [exact C1 | |]; (apply area_c2; [exact C2 | |]; unfold area; lra))))).
Qed.

Lemma area_abs a1 a2 b1 b2 c1 c2 : 1 <= a1 <= 2 -> 1 <= a2 <= 2 -> 1 <= b1 <= 2 -> 1 <= b2 <= 2 -> 1 <= c1 <= 2 -> 1 <= c2 <= 2 ->
  Rabs ((b1 - a1) * (c2 - a2) - (c1 - a1) * (b2 - a2)) <= 1.
Proof.
  intros. apply Rabs_le. split; [| apply area_le; assumption].
  assert ((c1 - a1) * (b2 - a2) - (b1 - a1) * (c2 - a2) <= 1) by (apply area_le; assumption). lra.
Qed.

(** Every sum here is small. *)
Lemma small x e : (e <= 1000)%Z -> Rabs x <= bpow radix2 e -> Rabs x <= bpow radix2 1000.
Proof. intros He H. eapply Rle_trans; [exact H | apply bpow_le; exact He]. Qed.

Lemma mul_ok x y : fin x -> fin y -> Rabs (val x) <= 1 -> Rabs (val y) <= 1 ->
  fin (mul x y) /\ Rabs (val (mul x y)) <= 1 /\ Rabs (val (mul x y) - val x * val y) <= h.
Proof.
  intros Fx Fy Hx Hy. assert (H : Rabs (val x * val y) <= bpow radix2 0) by (apply le1_mul; assumption).
  destruct (mul_val x y Fx Fy (small _ 0 ltac:(lia) H)) as (F & ->). split; [exact F |]. split.
  - apply (rnd_abs_le _ 0); [lia | exact H].
  - apply (rnd_err _ 0); [lia | exact H].
Qed.

(** One component of the normal. *)
Lemma normal_ok b1 b2 c1 c2 B1 B2 C1 C2 : fin b1 -> fin b2 -> fin c1 -> fin c2 -> val b1 = B1 -> val b2 = B2 -> val c1 = C1 -> val c2 = C2 ->
  Rabs B1 <= 1 -> Rabs B2 <= 1 -> Rabs C1 <= 1 -> Rabs C2 <= 1 -> Rabs (B1 * C2 - C1 * B2) <= 1 ->
  let n := sub (mul b1 c2) (mul c1 b2) in fin n /\ Rabs (val n) <= 1 /\ Rabs (val n - (B1 * C2 - C1 * B2)) <= 3 * h.
Proof.
  intros Fb1 Fb2 Fc1 Fc2 <- <- <- <- L1 L2 L3 L4 L. cbv zeta.
  destruct (mul_ok b1 c2 Fb1 Fc2 L1 L4) as (F1 & A1 & E1). destruct (mul_ok c1 b2 Fc1 Fb2 L3 L2) as (F2 & A2 & E2).
  set (p := mul b1 c2) in *. set (q := mul c1 b2) in *. set (N := val b1 * val c2 - val c1 * val b2) in *.
  assert (E : Rabs ((val p - val q) - N) <= 2 * h).
  { unfold N. replace (val p - val q - (val b1 * val c2 - val c1 * val b2)) with ((val p - val b1 * val c2) + - (val q - val c1 * val b2)) by ring.
    eapply Rle_trans; [apply Rabs_triang |]. rewrite Rabs_Ropp. lra. }
  assert (U : u = 2 * h) by (rewrite u_eq, h_eq; lra).
  assert (H1 : Rabs (val p - val q) <= 1 + u).
  { replace (val p - val q) with (N + ((val p - val q) - N)) by ring. eapply Rle_trans; [apply Rabs_triang |]. lra. }
  destruct (sub_val p q F1 F2) as (F & V).
  { apply (small _ 1); [lia |]. eapply Rle_trans; [exact H1 |]. rewrite u_eq. cbn. lra. }
  split; [exact F |]. rewrite V. pose proof (rnd_near_1 _ H1) as R1. split; [exact R1 |].
  assert (Hh : 0 < h) by apply bpow_gt_0.
  destruct (Rle_or_lt (Rabs (val p - val q)) 1) as [Le | Gt].
  - pose proof (rnd_err (val p - val q) 0 ltac:(lia) Le) as R. change (bpow radix2 (0 - 54)) with h in R.
    replace (rnd (val p - val q) - N) with ((rnd (val p - val q) - (val p - val q)) + ((val p - val q) - N)) by ring.
    eapply Rle_trans; [apply Rabs_triang |]. lra.
  - apply Rabs_le_inv in E. apply Rabs_le_inv in L. apply Rabs_le_inv in R1. apply Rabs_le. unfold Rabs in Gt. destruct (Rcase_abs (val p - val q)).
    + assert (K : rnd (val p - val q) <= -1).
      { assert (Q : val p - val q <= -1) by lra. apply rnd_le in Q. replace (rnd (-1)) with (-1) in Q; [exact Q |].
        replace (-1) with (- (1)) by lra. rewrite rnd_opp, rnd_fmt; [reflexivity | apply (fmt_bpow 0); lia]. }
      lra.
    + assert (K : 1 <= rnd (val p - val q)).
      { assert (Q : 1 <= val p - val q) by lra. apply rnd_le in Q. rewrite (rnd_fmt 1) in Q; [exact Q | apply (fmt_bpow 0); lia]. }
      lra.
Qed.

Lemma prod_ok d n N : fin d -> fin n -> Rabs (val d) <= 1 -> Rabs (val n) <= 1 -> Rabs (val n - N) <= 3 * h ->
  fin (mul d n) /\ Rabs (val (mul d n)) <= 1 /\ Rabs (val (mul d n) - val d * N) <= 4 * h.
Proof.
  intros Fd Fn Ld Ln E. destruct (mul_ok d n Fd Fn Ld Ln) as (F & A & B). split; [exact F |]. split; [exact A |].
  replace (val (mul d n) - val d * N) with ((val (mul d n) - val d * val n) + val d * (val n - N)) by ring.
  eapply Rle_trans; [apply Rabs_triang |]. rewrite Rabs_mult.
  assert (Rabs (val d) * Rabs (val n - N) <= 1 * (3 * h)) by (apply Rmult_le_compat; auto using Rabs_pos). lra.
Qed.

Lemma dot_ok d1 d2 d3 n1 n2 n3 N1 N2 N3 :
  fin d1 -> fin d2 -> fin d3 -> Rabs (val d1) <= 1 -> Rabs (val d2) <= 1 -> Rabs (val d3) <= 1 ->
  fin n1 /\ Rabs (val n1) <= 1 /\ Rabs (val n1 - N1) <= 3 * h -> fin n2 /\ Rabs (val n2) <= 1 /\ Rabs (val n2 - N2) <= 3 * h ->
  fin n3 /\ Rabs (val n3) <= 1 /\ Rabs (val n3 - N3) <= 3 * h ->
  let v := add (add (mul d1 n1) (mul d2 n2)) (mul d3 n3) in
  fin v /\ Rabs (val v - (val d1 * N1 + val d2 * N2 + val d3 * N3)) <= 18 * h.
Proof.
  intros F1 F2 F3 L1 L2 L3 (G1 & M1 & E1) (G2 & M2 & E2) (G3 & M3 & E3). cbv zeta.
  destruct (prod_ok d1 n1 N1 F1 G1 L1 M1 E1) as (P1 & A1 & D1). destruct (prod_ok d2 n2 N2 F2 G2 L2 M2 E2) as (P2 & A2 & D2).
  destruct (prod_ok d3 n3 N3 F3 G3 L3 M3 E3) as (P3 & A3 & D3).
  assert (S1 : Rabs (val (mul d1 n1) + val (mul d2 n2)) <= bpow radix2 1).
  { eapply Rle_trans; [apply Rabs_triang |]. cbn. lra. }
  destruct (add_val _ _ P1 P2 (small _ 1 ltac:(lia) S1)) as (Fs & Vs).
  pose proof (rnd_err _ 1 ltac:(lia) S1) as Rs. pose proof (rnd_abs_le _ 1 ltac:(lia) S1) as As. rewrite <- Vs in Rs, As.
  set (sm := add (mul d1 n1) (mul d2 n2)) in *.
  assert (S2 : Rabs (val sm + val (mul d3 n3)) <= bpow radix2 2).
  { eapply Rle_trans; [apply Rabs_triang |]. cbn in *. lra. }
  destruct (add_val _ _ Fs P3 (small _ 2 ltac:(lia) S2)) as (Fv & Vv).
  pose proof (rnd_err _ 2 ltac:(lia) S2) as Rv. rewrite <- Vv in Rv. split; [exact Fv |].
  replace (bpow radix2 (1 - 54)) with (2 * h) in Rs by (rewrite h_eq; cbn; lra).
  replace (bpow radix2 (2 - 54)) with (4 * h) in Rv by (rewrite h_eq; cbn; lra).
  apply Rabs_le_inv in D1, D2, D3, Rs, Rv. apply Rabs_le. lra.
Qed.

Lemma same_side_eps : fin same_side_epsilon /\ 18 * h < val same_side_epsilon.
Proof. split; [reflexivity |]. rewrite h_eq. unfold val, same_side_epsilon, lit. vm_compute. lra. Qed.

(** The sign of a value close to the exact one. *)
Lemma sign_ok v V : fin v -> Rabs (val v - Q2R V) <= 18 * h ->
  try_sign v same_side_epsilon = Imprecise \/ try_sign v same_side_epsilon = Value (sign_of V) /\ sign_of V <> Zero.
Proof.
  intros F E. destruct same_side_eps as (Fe & He). assert (Hh : 0 < h) by apply bpow_gt_0.
  destruct (try_sign_val v _ F Fe) as [[_ H] | [L ->]]; [left; exact H | right].
  apply Rabs_le_inv in E. unfold sign_of.
  destruct (fsign_val v F) as [[S ->] | [[S ->] | [S ->]]].
  - rewrite Rabs_pos_eq in L by lra. assert (P : (0 < V)%Q) by (apply Q2R_pos; lra). rewrite (proj1 (Qgt_alt _ _) P). split; [reflexivity | discriminate].
  - rewrite Rabs_left in L by lra. assert (P : (V < 0)%Q) by (apply Q2R_neg; lra). rewrite (proj1 (Qlt_alt _ _) P). split; [reflexivity | discriminate].
  - rewrite S, Rabs_R0 in L. lra.
Qed.

Lemma Q2R_unit q : (1 <= q <= 2)%Q -> 1 <= Q2R q <= 2.
Proof.
  intros (A & B). apply Qle_Rle in A, B. replace (Q2R 1) with 1 in A by (unfold Q2R; cbn; lra).
  replace (Q2R 2) with 2 in B by (unfold Q2R; cbn; lra). lra.
Qed.

Lemma side_value p a b c P A B C : represents3 p P -> represents3 a A -> represents3 b B -> represents3 c C ->
  unit_box P -> unit_box A -> unit_box B -> unit_box C ->
  let v := fdot3 (fsub3 p a) (fcross3 (fsub3 b a) (fsub3 c a)) in
  fin v /\ Rabs (val v - Q2R (dot3 (sub3 P A) (cross3 (sub3 B A) (sub3 C A)))) <= 18 * h.
Proof.
  intros (Px & Py & Pz) (Ax & Ay & Az) (Bx & By & Bz) (Cx & Cy & Cz) (Upx & Upy & Upz) (Uax & Uay & Uaz) (Ubx & Uby & Ubz) (Ucx & Ucy & Ucz). cbv zeta.
  cbn [x3 y3 z3] in *.
  destruct (diff_ok _ _ _ _ Px Ax Upx Uax) as (F1 & V1 & _ & L1). destruct (diff_ok _ _ _ _ Py Ay Upy Uay) as (F2 & V2 & _ & L2). destruct (diff_ok _ _ _ _ Pz Az Upz Uaz) as (F3 & V3 & _ & L3).
  destruct (diff_ok _ _ _ _ Bx Ax Ubx Uax) as (G1 & W1 & _ & M1). destruct (diff_ok _ _ _ _ By Ay Uby Uay) as (G2 & W2 & _ & M2). destruct (diff_ok _ _ _ _ Bz Az Ubz Uaz) as (G3 & W3 & _ & M3).
  destruct (diff_ok _ _ _ _ Cx Ax Ucx Uax) as (H1 & X1 & _ & N1). destruct (diff_ok _ _ _ _ Cy Ay Ucy Uay) as (H2 & X2 & _ & N2). destruct (diff_ok _ _ _ _ Cz Az Ucz Uaz) as (H3 & X3 & _ & N3).
  rewrite Q2R_minus in V1, V2, V3, W1, W2, W3, X1, X2, X3.
  apply Q2R_unit in Upx, Upy, Upz, Uax, Uay, Uaz, Ubx, Uby, Ubz, Ucx, Ucy, Ucz.
  unfold fdot3, fcross3, fsub3. cbn [fx fy fz].
  assert (K1 := normal_ok _ _ _ _ _ _ _ _ G2 G3 H2 H3 eq_refl eq_refl eq_refl eq_refl M2 M3 N2 N3).
  assert (K2 := normal_ok _ _ _ _ _ _ _ _ G3 G1 H3 H1 eq_refl eq_refl eq_refl eq_refl M3 M1 N3 N1).
  assert (K3 := normal_ok _ _ _ _ _ _ _ _ G1 G2 H1 H2 eq_refl eq_refl eq_refl eq_refl M1 M2 N1 N2).
  rewrite W1, W2, W3, X1, X2, X3 in *. cbv zeta in K1, K2, K3.
  specialize (K1 (area_abs _ _ _ _ _ _ Uay Uaz Uby Ubz Ucy Ucz)). specialize (K2 (area_abs _ _ _ _ _ _ Uaz Uax Ubz Ubx Ucz Ucx)). specialize (K3 (area_abs _ _ _ _ _ _ Uax Uay Ubx Uby Ucx Ucy)).
  destruct (dot_ok _ _ _ _ _ _ _ _ _ F1 F2 F3 L1 L2 L3 K1 K2 K3) as (F & E). split; [exact F |].
  rewrite V1, V2, V3 in E. unfold dot3, cross3, sub3. cbn [x3 y3 z3].
  repeat rewrite ?Q2R_plus, ?Q2R_minus, ?Q2R_mult.
  match type of E with Rabs (?x - ?y) <= _ => match goal with |- Rabs (?x' - ?y') <= _ => replace (x' - y') with (x - y) by ring end end. exact E.
Qed.

Lemma same_side_ok p q a b c P Q0 A B C : represents3 p P -> represents3 q Q0 -> represents3 a A -> represents3 b B -> represents3 c C ->
  unit_box P -> unit_box Q0 -> unit_box A -> unit_box B -> unit_box C ->
  same_side64 p q a b c = Imprecise \/ same_side64 p q a b c = unwrap (same_side P Q0 A B C) /\ same_side P Q0 A B C <> None.
Proof.
  intros RP RQ RA RB RC UP UQ UA UB UC.
  destruct (side_value p a b c P A B C RP RA RB RC UP UA UB UC) as (F1 & E1). destruct (side_value q a b c Q0 A B C RQ RA RB RC UQ UA UB UC) as (F2 & E2).
  unfold same_side64, same_side. cbv zeta.
  destruct (sign_ok _ _ F1 E1) as [-> | [-> N1]]; [left; reflexivity |].
  destruct (sign_ok _ _ F2 E2) as [-> | [-> N2]]; [left; reflexivity |].
  right. cbn [bind]. split; [reflexivity |]. destruct (sign_of _); destruct (sign_of _); cbn; congruence.
Qed.

Lemma both_ok a b o o' : a = Imprecise \/ a = unwrap o /\ o <> None -> b = Imprecise \/ b = unwrap o' /\ o' <> None ->
  both a b = Imprecise \/ both a b = unwrap (and_then o o') /\ and_then o o' <> None.
Proof.
  intros [-> | [-> N]] Hb; [left; reflexivity |]. destruct o as [[|] |]; cbn [unwrap both and_then]; [exact Hb | right; split; [reflexivity | discriminate] | contradiction].
Qed.

(** ** Lifting *)
Definition eq3 (p q : point3) : Prop := (x3 p == x3 q /\ y3 p == y3 q /\ z3 p == z3 q)%Q.

Lemma lift_point_ok p P : represents3 p P -> exists P', lift_point p = Value P' /\ eq3 P' P.
Proof.
  intros (A & B & C). destruct (represents_lift _ _ A) as (x & X & Ex). destruct (represents_lift _ _ B) as (y & Y & Ey). destruct (represents_lift _ _ C) as (z & Z & Ez).
  exists (P3 x y z). unfold lift_point. rewrite X, Y, Z. split; [reflexivity |]. repeat split; assumption.
Qed.

Lemma same_side_ext P Q0 A B C P' Q' A' B' C' : eq3 P P' -> eq3 Q0 Q' -> eq3 A A' -> eq3 B B' -> eq3 C C' -> same_side P Q0 A B C = same_side P' Q' A' B' C'.
Proof.
  intros (P1 & P2 & P3) (Q1 & Q2 & Q3) (A1 & A2 & A3) (B1 & B2 & B3) (C1 & C2 & C3). unfold same_side. cbv zeta.
  assert (S : forall v w, (v == w)%Q -> sign_of v = sign_of w) by (intros v w E; unfold sign_of; rewrite E; reflexivity).
  rewrite (S (dot3 (sub3 P A) (cross3 (sub3 B A) (sub3 C A))) (dot3 (sub3 P' A') (cross3 (sub3 B' A') (sub3 C' A')))).
  - rewrite (S (dot3 (sub3 Q0 A) (cross3 (sub3 B A) (sub3 C A))) (dot3 (sub3 Q' A') (cross3 (sub3 B' A') (sub3 C' A')))); [reflexivity |].
    unfold dot3, cross3, sub3. cbn [x3 y3 z3]. rewrite Q1, Q2, Q3, A1, A2, A3, B1, B2, B3, C1, C2, C3. reflexivity.
  - unfold dot3, cross3, sub3. cbn [x3 y3 z3]. rewrite P1, P2, P3, A1, A2, A3, B1, B2, B3, C1, C2, C3. reflexivity.
Qed.

Theorem contains_ok t p T P : represents_tetra t T -> represents3 p P -> unit_tetra T -> unit_box P ->
  contains64 t p = unwrap (contains3 T P).
Proof.
  intros (R1 & R2 & R3 & R4) RP (U1 & U2 & U3 & U4) UP. unfold contains64.
  assert (F : f64_contains t p = Imprecise \/ f64_contains t p = unwrap (contains3 T P) /\ contains3 T P <> None).
  { unfold f64_contains, contains3. cbv zeta. repeat (apply both_ok; [apply same_side_ok; assumption |]). apply same_side_ok; assumption. }
  destruct F as [-> | [-> N]]; cbn [or_else].
  - destruct (lift_point_ok _ _ R1) as (A & LA & EA). destruct (lift_point_ok _ _ R2) as (B & LB & EB). destruct (lift_point_ok _ _ R3) as (C & LC & EC).
    destruct (lift_point_ok _ _ R4) as (D & LD & ED). destruct (lift_point_ok _ _ RP) as (E & LE & EE).
    unfold lift_tetra. rewrite LA, LB, LC, LD. cbn [bind]. rewrite LE. cbn [bind]. f_equal. unfold contains3. cbv zeta. cbn [ttp1 ttp2 ttp3 ttp4].
    rewrite (same_side_ext E A B C D _ _ _ _ _ EE EA EB EC ED), (same_side_ext E B A C D _ _ _ _ _ EE EB EA EC ED),
      (same_side_ext E C A B D _ _ _ _ _ EE EC EA EB ED), (same_side_ext E D A B C _ _ _ _ _ EE ED EA EB EC). reflexivity.
  - destruct (contains3 T P); [reflexivity | contradiction].
Qed.

Theorem contains_geometry t p T P : represents_tetra t T -> represents3 p P -> unit_tetra T -> unit_box P -> ~ (volume6 T == 0)%Q ->
  match contains64 t p with
  | Value true => strictly_inside3 T P
  | Value false => strictly_outside3 T P
  | Panics => on_face_plane3 T P
  | Imprecise => False
  end.
Proof.
  intros RT RP UT UP NV. rewrite (contains_ok t p T P RT RP UT UP). destruct (contains3_ok T P NV) as (A & B & C).
  destruct (contains3 T P) as [[|] |]; cbn [unwrap]; [apply A | apply B | apply C]; reflexivity.
Qed.
