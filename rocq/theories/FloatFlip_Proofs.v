(** Proofs about the tests of [FloatFlip_Model]: solving three equations, and the choice of the flip. *)
From Coq Require Import ZArith QArith Qreals Reals Lra Lia Bool List Psatz.
From Flocq Require Import Core IEEE754.BinarySingleNaN.
From Verif Require Import Geometry_Model Geometry_Spec Float_Model Float_Spec Float_Proofs Float_InSphere_Proofs Float_Contains_Proofs FloatFlip_Model FloatSolve_Proofs.
Import ListNotations.
Open Scope R_scope.

Lemma cmp_val x y : fin x -> fin y -> cmp x y = Some (Rcompare (val x) (val y)).
Proof. intros. apply Bcompare_correct; assumption. Qed.

Lemma is_zero_false x : fin x -> val x <> 0 -> is_zero x = false.
Proof.
  intros F N. unfold is_zero. rewrite cmp_val by (exact F || reflexivity). change (val zero) with 0. destruct (Rcompare_spec (val x) 0); [reflexivity | contradiction | reflexivity].
Qed.

Lemma larger_ok a k b i : fin (get64 a b k) -> fin (get64 a i k) ->
  (larger64 a k (Value b) i = Value b /\ Rabs (val (get64 a i k)) <= Rabs (val (get64 a b k))) \/ (larger64 a k (Value b) i = Value i /\ Rabs (val (get64 a b k)) <= Rabs (val (get64 a i k))).
Proof.
  intros F1 F2. unfold larger64. cbn [bind]. rewrite cmp_val by (apply abs_fin; assumption). rewrite !abs_val.
  destruct (Rcompare_spec (Rabs (val (get64 a b k))) (Rabs (val (get64 a i k)))); [right | right | left]; split; try reflexivity; lra.
Qed.

Section Reduce.
  Variables a0 a1 a2 a3 b0 b1 b2 b3 c0 c1 c2 c3 : f64.
  Definition rows3 : matrix64 := [[a0; a1; a2; a3]; [b0; b1; b2; b3]; [c0; c1; c2; c3]].

  Lemma pivot0 : fin a0 -> fin b0 -> fin c0 ->
    (pivot_row64 rows3 3 0 0 = Value 0%nat /\ Rabs (val b0) <= Rabs (val a0) /\ Rabs (val c0) <= Rabs (val a0)) \/
    (pivot_row64 rows3 3 0 0 = Value 1%nat /\ Rabs (val a0) <= Rabs (val b0) /\ Rabs (val c0) <= Rabs (val b0)) \/
    (pivot_row64 rows3 3 0 0 = Value 2%nat /\ Rabs (val b0) <= Rabs (val c0) /\ Rabs (val a0) <= Rabs (val c0)).
  Proof.
    intros Fa Fb Fc. unfold pivot_row64. cbn [seq Nat.add Nat.sub fold_left].
    destruct (larger_ok rows3 0 0 1 Fa Fb) as [(E & L) | (E & L)]; rewrite E; cbn [get64 rows3 nth] in L.
    - destruct (larger_ok rows3 0 0 2 Fa Fc) as [(E' & L') | (E' & L')]; rewrite E'; cbn [get64 rows3 nth] in L'; [left | right; right]; (split; [reflexivity |]; lra).
    - destruct (larger_ok rows3 0 1 2 Fb Fc) as [(E' & L') | (E' & L')]; rewrite E'; cbn [get64 rows3 nth] in L'; [right; left | right; right]; (split; [reflexivity |]; lra).
  Qed.

  Lemma pivot1 : fin b1 -> fin c1 ->
    (pivot_row64 rows3 3 1 1 = Value 1%nat /\ Rabs (val c1) <= Rabs (val b1)) \/ (pivot_row64 rows3 3 1 1 = Value 2%nat /\ Rabs (val b1) <= Rabs (val c1)).
  Proof.
    intros Fb Fc. unfold pivot_row64. cbn [seq Nat.add Nat.sub fold_left].
    destruct (larger_ok rows3 1 1 2 Fb Fc) as [(E & L) | (E & L)]; rewrite E; [left | right]; (split; [reflexivity | exact L]).
  Qed.
End Reduce.

(** After the first step. *)
Lemma stepped0 a0 a1 a2 a3 b0 b1 b2 b3 c0 c1 c2 c3 :
  eliminate64 3 4 (swap_rows64 3 4 (rows3 a0 a1 a2 a3 b0 b1 b2 b3 c0 c1 c2 c3) 0 0) 0 0 =
  rows3 a0 a1 a2 a3 zero (s1 a0 b1 a1 b0) (s1 a0 b2 a2 b0) (s1 a0 b3 a3 b0) zero (s1 a0 c1 a1 c0) (s1 a0 c2 a2 c0) (s1 a0 c3 a3 c0).
Proof. reflexivity. Qed.
Lemma swapped1 a0 a1 a2 a3 b0 b1 b2 b3 c0 c1 c2 c3 :
  swap_rows64 3 4 (rows3 a0 a1 a2 a3 b0 b1 b2 b3 c0 c1 c2 c3) 0 1 = swap_rows64 3 4 (rows3 b0 b1 b2 b3 a0 a1 a2 a3 c0 c1 c2 c3) 0 0.
Proof. reflexivity. Qed.
Lemma swapped2 a0 a1 a2 a3 b0 b1 b2 b3 c0 c1 c2 c3 :
  swap_rows64 3 4 (rows3 a0 a1 a2 a3 b0 b1 b2 b3 c0 c1 c2 c3) 0 2 = swap_rows64 3 4 (rows3 c0 c1 c2 c3 b0 b1 b2 b3 a0 a1 a2 a3) 0 0.
Proof. reflexivity. Qed.

(** What follows the choice of the rows. *)
Section Rest.
  Variables p0 p1 p2 p3 d0 d1 d2 d3 e0 e1 e2 e3 : f64.
  Hypothesis Hp : ok1 p0 /\ ok1 p1 /\ ok1 p2 /\ ok1 p3.
  Hypothesis Hd : ok1 d0 /\ ok1 d1 /\ ok1 d2 /\ ok1 d3.
  Hypothesis He : ok1 e0 /\ ok1 e1 /\ ok1 e2 /\ ok1 e3.
  Hypothesis Hd0 : Rabs (val d0) <= Rabs (val p0).
  Hypothesis He0 : Rabs (val e0) <= Rabs (val p0).
  Definition M1 : matrix64 := rows3 p0 p1 p2 p3 zero (s1 p0 d1 p1 d0) (s1 p0 d2 p2 d0) (s1 p0 d3 p3 d0) zero (s1 p0 e1 p1 e0) (s1 p0 e2 p2 e0) (s1 p0 e3 p3 e0).
  Hypothesis He1 : Rabs (val (s1 p0 e1 p1 e0)) <= Rabs (val (s1 p0 d1 p1 d0)).
  Hypothesis Hdet : bpow radix2 (-42) <= Rabs (det3 p0 p1 p2 d0 d1 d2 e0 e1 e2).

  Definition M2 : matrix64 := rows3 p0 p1 p2 p3 zero (s1 p0 d1 p1 d0) (s1 p0 d2 p2 d0) (s1 p0 d3 p3 d0) zero zero
    (s2 p0 p1 d0 d1 e0 e1 (s1 p0 e2 p2 e0) (s1 p0 d2 p2 d0)) (s2 p0 p1 d0 d1 e0 e1 (s1 p0 e3 p3 e0) (s1 p0 d3 p3 d0)).
  Lemma stepped1 : eliminate64 3 4 (swap_rows64 3 4 M1 1 1) 1 1 = M2.
  Proof. reflexivity. Qed.

  Lemma stepped2 : eliminate64 3 4 (swap_rows64 3 4 M2 2 2) 2 2 = M2.
  Proof. reflexivity. Qed.
  Lemma back : backward64 3 M2 3 [] =
    [c1 p0 p1 p2 p3 d0 d1 d2 d3 e0 e1 e2 e3; c2 p0 p1 p2 p3 d0 d1 d2 d3 e0 e1 e2 e3; c3 p0 p1 p2 p3 d0 d1 d2 d3 e0 e1 e2 e3].
  Proof. reflexivity. Qed.

  Lemma rest_ok : pivot_row64 M1 3 1 1 = Value 1%nat -> bind (eliminate_all64 3 3 4 M1 1 1) (fun a => Value (backward64 3 a 3 [])) =
    Value [c1 p0 p1 p2 p3 d0 d1 d2 d3 e0 e1 e2 e3; c2 p0 p1 p2 p3 d0 d1 d2 d3 e0 e1 e2 e3; c3 p0 p1 p2 p3 d0 d1 d2 d3 e0 e1 e2 e3].
  Proof.
    intro E. destruct (pivots _ _ _ _ _ _ _ _ _ _ _ _ Hp Hd He Hd0 He0 He1 Hdet) as (K0 & K1 & K2). pose proof Hp as (P0 & P1 & P2 & P3). pose proof Hd as (D0 & D1 & D2 & D3). pose proof He as (E0 & E1 & E2 & E3).
    pose proof (first_d _ _ _ _ _ _ _ _ _ _ _ Hp Hd Hd0 He0 Hdet _ _ D1 P1) as (FD & _).
    pose proof (second _ _ _ _ _ _ _ _ _ _ _ _ Hp Hd He Hd0 He0 He1 Hdet _ _ _ _ (first_e _ _ _ _ _ _ _ _ _ _ _ Hp He Hd0 He0 Hdet e2 p2 E2 P2) (first_d _ _ _ _ _ _ _ _ _ _ _ Hp Hd Hd0 He0 Hdet d2 p2 D2 P2)) as (FT & _).
    cbn [eliminate_all64 Nat.ltb Nat.leb andb]. rewrite E. cbn [bind].
    replace (is_zero (get64 M1 1 1)) with false by (symmetry; apply is_zero_false; [exact FD | apply (nonzero_of _ 46 K1)]).
    rewrite stepped1. cbn [Nat.add Nat.ltb Nat.leb andb]. change (pivot_row64 M2 3 2 2) with (@Value nat 2%nat). cbn [bind].
    replace (is_zero (get64 M2 2 2)) with false by (symmetry; apply is_zero_false; [exact FT | apply (nonzero_of _ 46 K2)]).
    rewrite stepped2. cbn [bind]. rewrite back. reflexivity.
  Qed.
End Rest.

(** A computed solution that is close to the exact one. *)
Definition solved (o : answer (list f64)) (det x1 x2 x3 : R) : Prop :=
  exists y1 y2 y3, o = Value [y1; y2; y3] /\ fin y1 /\ fin y2 /\ fin y3 /\
  let n := 1 + Rabs (val y1) + Rabs (val y2) + Rabs (val y3) in
  Rabs det * n <= 40 /\ Rabs det * Rabs (val y1 - x1) <= 256 * u * n /\ Rabs det * Rabs (val y2 - x2) <= 256 * u * n /\ Rabs det * Rabs (val y3 - x3) <= 256 * u * n.
Definition equation (a0 a1 a2 a3 : f64) (x1 x2 x3 : R) : Prop := val a0 * x1 + val a1 * x2 + val a2 * x3 = val a3.
Definition row_ok (a0 a1 a2 a3 : f64) : Prop := ok1 a0 /\ ok1 a1 /\ ok1 a2 /\ ok1 a3.

Lemma after_first p0 p1 p2 p3 d0 d1 d2 d3 e0 e1 e2 e3 x1 x2 x3 : row_ok p0 p1 p2 p3 -> row_ok d0 d1 d2 d3 -> row_ok e0 e1 e2 e3 ->
  Rabs (val d0) <= Rabs (val p0) -> Rabs (val e0) <= Rabs (val p0) -> bpow radix2 (-42) <= Rabs (det3 p0 p1 p2 d0 d1 d2 e0 e1 e2) ->
  equation p0 p1 p2 p3 x1 x2 x3 -> equation d0 d1 d2 d3 x1 x2 x3 -> equation e0 e1 e2 e3 x1 x2 x3 ->
  solved (bind (eliminate_all64 3 3 4 (M1 p0 p1 p2 p3 d0 d1 d2 d3 e0 e1 e2 e3) 1 1) (fun a => Value (backward64 3 a 3 []))) (det3 p0 p1 p2 d0 d1 d2 e0 e1 e2) x1 x2 x3.
Proof.
  intros Hp Hd He Hd0 He0 Hdet S1 S2 S3. pose proof Hp as (P0 & P1 & P2 & P3). pose proof Hd as (D0 & D1 & D2 & D3). pose proof He as (E0 & E1 & E2 & E3).
  pose proof (first_d _ _ _ _ _ _ _ _ _ _ _ Hp Hd Hd0 He0 Hdet _ _ D1 P1) as (FD & _). pose proof (first_e _ _ _ _ _ _ _ _ _ _ _ Hp He Hd0 He0 Hdet _ _ E1 P1) as (FE & _).
  destruct (pivot1 p0 p1 p2 p3 zero (s1 p0 d1 p1 d0) (s1 p0 d2 p2 d0) (s1 p0 d3 p3 d0) zero (s1 p0 e1 p1 e0) (s1 p0 e2 p2 e0) (s1 p0 e3 p3 e0) FD FE) as [(E & L) | (E & L)].
  - rewrite (rest_ok _ _ _ _ _ _ _ _ _ _ _ _ Hp Hd He Hd0 He0 L Hdet E). destruct (third_row _ _ _ _ _ _ _ _ _ _ _ _ Hp Hd He Hd0 He0 L Hdet) as (F3 & _).
    destruct (second_row _ _ _ _ _ _ _ _ _ _ _ _ Hp Hd He Hd0 He0 L Hdet) as (F2 & _). destruct (first_row _ _ _ _ _ _ _ _ _ _ _ _ Hp Hd He Hd0 He0 L Hdet) as (F1 & _).
    do 3 eexists. split; [reflexivity |]. split; [exact F1 |]. split; [exact F2 |]. split; [exact F3 |]. exact (close _ _ _ _ _ _ _ _ _ _ _ _ Hp Hd He Hd0 He0 L Hdet x1 x2 x3 S1 S2 S3).
  - assert (Hdet' : bpow radix2 (-42) <= Rabs (det3 p0 p1 p2 e0 e1 e2 d0 d1 d2)).
    { replace (det3 p0 p1 p2 e0 e1 e2 d0 d1 d2) with (- det3 p0 p1 p2 d0 d1 d2 e0 e1 e2) by (unfold det3; ring). rewrite Rabs_Ropp. exact Hdet. }
    assert (Q : bind (eliminate_all64 3 3 4 (M1 p0 p1 p2 p3 d0 d1 d2 d3 e0 e1 e2 e3) 1 1) (fun a => Value (backward64 3 a 3 [])) =
      Value [c1 p0 p1 p2 p3 e0 e1 e2 e3 d0 d1 d2 d3; c2 p0 p1 p2 p3 e0 e1 e2 e3 d0 d1 d2 d3; c3 p0 p1 p2 p3 e0 e1 e2 e3 d0 d1 d2 d3]).
    { destruct (pivots _ _ _ _ _ _ _ _ _ _ _ _ Hp He Hd He0 Hd0 L Hdet') as (K0 & K1 & K2).
      pose proof (second _ _ _ _ _ _ _ _ _ _ _ _ Hp He Hd He0 Hd0 L Hdet' _ _ _ _ (first_e _ _ _ _ _ _ _ _ _ _ _ Hp Hd He0 Hd0 Hdet' d2 p2 D2 P2) (first_d _ _ _ _ _ _ _ _ _ _ _ Hp He He0 Hd0 Hdet' e2 p2 E2 P2)) as (FT & _).
      cbn [eliminate_all64 Nat.ltb Nat.leb andb]. change (rows3 p0 p1 p2 p3 zero (s1 p0 d1 p1 d0) (s1 p0 d2 p2 d0) (s1 p0 d3 p3 d0) zero (s1 p0 e1 p1 e0) (s1 p0 e2 p2 e0) (s1 p0 e3 p3 e0)) with (M1 p0 p1 p2 p3 d0 d1 d2 d3 e0 e1 e2 e3) in E.
      rewrite E. cbn [bind]. replace (is_zero (get64 (M1 p0 p1 p2 p3 d0 d1 d2 d3 e0 e1 e2 e3) 2 1)) with false by (symmetry; apply is_zero_false; [exact FE | apply (nonzero_of _ 46 K1)]).
      change (eliminate64 3 4 (swap_rows64 3 4 (M1 p0 p1 p2 p3 d0 d1 d2 d3 e0 e1 e2 e3) 1 2) 1 1) with (M2 p0 p1 p2 p3 e0 e1 e2 e3 d0 d1 d2 d3).
      cbn [Nat.add Nat.ltb Nat.leb andb]. change (pivot_row64 (M2 p0 p1 p2 p3 e0 e1 e2 e3 d0 d1 d2 d3) 3 2 2) with (@Value nat 2%nat). cbn [bind].
      replace (is_zero (get64 (M2 p0 p1 p2 p3 e0 e1 e2 e3 d0 d1 d2 d3) 2 2)) with false by (symmetry; apply is_zero_false; [exact FT | apply (nonzero_of _ 46 K2)]).
      rewrite stepped2. cbn [bind]. rewrite back. reflexivity. }
    rewrite Q. destruct (third_row _ _ _ _ _ _ _ _ _ _ _ _ Hp He Hd He0 Hd0 L Hdet') as (F3 & _).
    destruct (second_row _ _ _ _ _ _ _ _ _ _ _ _ Hp He Hd He0 Hd0 L Hdet') as (F2 & _). destruct (first_row _ _ _ _ _ _ _ _ _ _ _ _ Hp He Hd He0 Hd0 L Hdet') as (F1 & _).
    pose proof (close _ _ _ _ _ _ _ _ _ _ _ _ Hp He Hd He0 Hd0 L Hdet' x1 x2 x3 S1 S3 S2) as C.
    replace (det3 p0 p1 p2 e0 e1 e2 d0 d1 d2) with (- det3 p0 p1 p2 d0 d1 d2 e0 e1 e2) in C by (unfold det3; ring). rewrite Rabs_Ropp in C.
    do 3 eexists. split; [reflexivity |]. split; [exact F1 |]. split; [exact F2 |]. split; [exact F3 |]. exact C.
Qed.

Theorem solve3_ok a0 a1 a2 a3 b0 b1 b2 b3 c0 c1 c2 c3 x1 x2 x3 : row_ok a0 a1 a2 a3 -> row_ok b0 b1 b2 b3 -> row_ok c0 c1 c2 c3 ->
  bpow radix2 (-42) <= Rabs (det3 a0 a1 a2 b0 b1 b2 c0 c1 c2) -> equation a0 a1 a2 a3 x1 x2 x3 -> equation b0 b1 b2 b3 x1 x2 x3 -> equation c0 c1 c2 c3 x1 x2 x3 ->
  solved (solve64 3 [[a0; a1; a2; a3]; [b0; b1; b2; b3]; [c0; c1; c2; c3]]) (det3 a0 a1 a2 b0 b1 b2 c0 c1 c2) x1 x2 x3.
Proof.
  intros Ha Hb Hc Hdet S1 S2 S3. change [[a0; a1; a2; a3]; [b0; b1; b2; b3]; [c0; c1; c2; c3]] with (rows3 a0 a1 a2 a3 b0 b1 b2 b3 c0 c1 c2 c3).
  pose proof Ha as ((FA & _) & _). pose proof Hb as ((FB & _) & _). pose proof Hc as ((FC & _) & _).
  unfold solve64. change (3 + 1)%nat with 4%nat. cbn [eliminate_all64 Nat.ltb Nat.leb andb].
  destruct (pivot0 a0 a1 a2 a3 b0 b1 b2 b3 c0 c1 c2 c3 FA FB FC) as [(E & L1 & L2) | [(E & L1 & L2) | (E & L1 & L2)]]; rewrite E; cbn [bind].
  - pose proof (p0_nonzero _ _ _ _ _ _ _ _ _ L1 L2 Hdet) as NZ.
    replace (is_zero (get64 (rows3 a0 a1 a2 a3 b0 b1 b2 b3 c0 c1 c2 c3) 0 0)) with false by (symmetry; apply is_zero_false; [exact FA | exact NZ]). rewrite stepped0.
    exact (after_first _ _ _ _ _ _ _ _ _ _ _ _ _ _ _ Ha Hb Hc L1 L2 Hdet S1 S2 S3).
  - assert (D : det3 a0 a1 a2 b0 b1 b2 c0 c1 c2 = - det3 b0 b1 b2 a0 a1 a2 c0 c1 c2) by (unfold det3; ring). rewrite D, Rabs_Ropp in Hdet. pose proof (p0_nonzero _ _ _ _ _ _ _ _ _ L1 L2 Hdet) as NZ.
    replace (is_zero (get64 (rows3 a0 a1 a2 a3 b0 b1 b2 b3 c0 c1 c2 c3) 1 0)) with false by (symmetry; apply is_zero_false; [exact FB | exact NZ]). rewrite swapped1, stepped0.
    pose proof (after_first _ _ _ _ _ _ _ _ _ _ _ _ _ _ _ Hb Ha Hc L1 L2 Hdet S2 S1 S3) as Q. rewrite D. unfold solved in *. rewrite Rabs_Ropp. exact Q.
  - assert (D : det3 a0 a1 a2 b0 b1 b2 c0 c1 c2 = - det3 c0 c1 c2 b0 b1 b2 a0 a1 a2) by (unfold det3; ring). rewrite D, Rabs_Ropp in Hdet. pose proof (p0_nonzero _ _ _ _ _ _ _ _ _ L1 L2 Hdet) as NZ.
    replace (is_zero (get64 (rows3 a0 a1 a2 a3 b0 b1 b2 b3 c0 c1 c2 c3) 2 0)) with false by (symmetry; apply is_zero_false; [exact FC | exact NZ]). rewrite swapped2, stepped0.
    pose proof (after_first _ _ _ _ _ _ _ _ _ _ _ _ _ _ _ Hc Hb Ha L1 L2 Hdet S3 S2 S1) as Q. rewrite D. unfold solved in *. rewrite Rabs_Ropp. exact Q.
Qed.
