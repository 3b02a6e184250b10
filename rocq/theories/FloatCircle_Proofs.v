(** Proofs about the test with [f64] whether a point belongs to the circumcircle of a triangle. *)
From Coq Require Import ZArith QArith Qabs Qreals Reals Lra Lia Bool List Psatz.
From Flocq Require Import Core IEEE754.BinarySingleNaN.
From Verif Require Import Geometry_Model Geometry_Spec Geometry_Proofs Float_Model Float_Spec Float_Proofs Float_InSphere_Proofs Float_Contains_Proofs FloatFlip_Model FloatFlip_Spec
  FloatSolve_Proofs FloatFlip_Proofs FloatLine_Proofs.
Import ListNotations.
Open Scope R_scope.

(** ** The expressions of the test *)
Definition ebx := V 0. Definition eby := V 1. Definition ecx := V 2. Definition ecy := V 3. Definition edx := V 4. Definition edy := V 5.
Definition sq2 (x y : ex) : ex := Add (Mul x x) (Mul y y).
Definition circle_ex : ex :=
  let b := sq2 ebx eby in let c := sq2 ecx ecy in let d := sq2 edx edy in
  Sub (Sub (Sub (Add (Add (Mul (Mul ebx ecy) d) (Mul (Mul eby c) edx)) (Mul (Mul b ecx) edy)) (Mul (Mul b ecy) edx)) (Mul (Mul eby ecx) d)) (Mul (Mul ebx c) edy).

Section Circle.
  Variable s : nat -> f64.
  Hypothesis Hfin : forall i, fin (s i).
  Hypothesis Hmul : forall i, multiple (-52) (val (s i)).
  Hypothesis Hle : forall i, Rabs (val (s i)) <= 1.
  Definition fsq (x y : f64) : f64 := add (mul x x) (mul y y).
  Let row (x y : f64) : frow3 := (x, y, fsq x y).
  Definition exact_det : R := evR (r s) circle_ex.
  Let v (i : nat) : R := val (s i).

  Lemma pow9 : (1 + u) ^ 9 - 1 <= 10 * u.
  Proof. rewrite u_eq. cbn [pow]. lra. Qed.
  Lemma pow2 : (1 + u) ^ 2 - 1 <= 2 * u + / 1000 * u.
  Proof. rewrite u_eq. cbn [pow]. lra. Qed.

  Lemma direct : let x := determinant3x3_64 (row (s 0%nat) (s 1%nat)) (row (s 2%nat) (s 3%nat)) (row (s 4%nat) (s 5%nat)) in fin x /\ Rabs (val x - exact_det) <= 120 * u.
  Proof.
    destruct (error s 1 Hfin Hmul ltac:(lia) Hle circle_ex) as (F & _ & E); [vm_compute; discriminate | vm_compute; lia | vm_compute; discriminate |].
    change (cnt circle_ex) with 9%nat in E.
    assert (A : evA (r s) circle_ex <= 12) by (change 12 with (IZR (size 1 circle_ex)); apply evA_size; [lia | exact Hle]).
    split; [exact F |]. eapply Rle_trans; [exact E |]. pose proof pow9. pose proof (evA_pos (r s) circle_ex). pose proof u_pos.
    apply Rle_trans with (evA (r s) circle_ex * (10 * u)); [apply Rmult_le_compat_l; assumption |]. replace (120 * u) with (12 * (10 * u)) by ring. apply Rmult_le_compat_r; lra.
  Qed.

  Lemma square i j : fin (fsq (s i) (s j)) /\ Rabs (val (fsq (s i) (s j)) - (v i * v i + v j * v j)) <= 5 * u.
  Proof.
    destruct (error s 1 Hfin Hmul ltac:(lia) Hle (sq2 (V i) (V j))) as (F & _ & E); [vm_compute; discriminate | vm_compute; lia | vm_compute; discriminate |].
    change (cnt (sq2 (V i) (V j))) with 2%nat in E.
    assert (A : evA (r s) (sq2 (V i) (V j)) <= 2) by (change 2 with (IZR (size 1 (sq2 (V i) (V j)))); apply evA_size; [lia | exact Hle]).
    split; [exact F |]. eapply Rle_trans; [exact E |]. pose proof pow2. pose proof (evA_pos (r s) (sq2 (V i) (V j))). pose proof u_pos.
    apply Rle_trans with (evA (r s) (sq2 (V i) (V j)) * (2 * u + / 1000 * u)); [apply Rmult_le_compat_l; assumption |]. apply Rle_trans with (2 * (2 * u + / 1000 * u)); [apply Rmult_le_compat_r; lra | lra].
  Qed.

  (** The determinant of the rounded rows. *)
  Definition det3R (a0 a1 a2 b0 b1 b2 c0 c1 c2 : R) : R := a0 * b1 * c2 + a1 * b2 * c0 + a2 * b0 * c1 - a2 * b1 * c0 - a1 * b0 * c2 - a0 * b2 * c1.
  Lemma rows_near : Rabs (det3R (v 0%nat) (v 1%nat) (val (fsq (s 0%nat) (s 1%nat))) (v 2%nat) (v 3%nat) (val (fsq (s 2%nat) (s 3%nat))) (v 4%nat) (v 5%nat) (val (fsq (s 4%nat) (s 5%nat))) - exact_det) <= 30 * u.
  Proof.
    destruct (square 0 1) as (_ & A). destruct (square 2 3) as (_ & B). destruct (square 4 5) as (_ & C).
    set (a := val (fsq (s 0%nat) (s 1%nat))) in *. set (b := val (fsq (s 2%nat) (s 3%nat))) in *. set (c := val (fsq (s 4%nat) (s 5%nat))) in *.
    set (a' := v 0%nat * v 0%nat + v 1%nat * v 1%nat) in *. set (b' := v 2%nat * v 2%nat + v 3%nat * v 3%nat) in *. set (c' := v 4%nat * v 4%nat + v 5%nat * v 5%nat) in *.
    assert (E : exact_det = det3R (v 0%nat) (v 1%nat) a' (v 2%nat) (v 3%nat) b' (v 4%nat) (v 5%nat) c').
    { unfold exact_det, circle_ex, sq2, ebx, eby, ecx, ecy, edx, edy, det3R, a', b', c', v. cbv zeta. cbn [evR]. unfold r. ring. }
    rewrite E. replace (det3R (v 0%nat) (v 1%nat) a (v 2%nat) (v 3%nat) b (v 4%nat) (v 5%nat) c - det3R (v 0%nat) (v 1%nat) a' (v 2%nat) (v 3%nat) b' (v 4%nat) (v 5%nat) c')
      with ((a - a') * (v 2%nat * v 5%nat - v 3%nat * v 4%nat) - (b - b') * (v 0%nat * v 5%nat - v 1%nat * v 4%nat) + (c - c') * (v 0%nat * v 3%nat - v 1%nat * v 2%nat)) by (unfold det3R; ring).
    replace (30 * u) with (6 * (5 * u)) by ring. apply combine; try assumption; apply minor; apply Hle.
  Qed.
End Circle.

Lemma sign_of_near (x X : R) : Rabs (x - X) < Rabs X -> (0 < X -> 0 < x) /\ (X < 0 -> x < 0).
Proof. intro H. split; intro S; [rewrite (Rabs_pos_eq X) in H by lra | rewrite (Rabs_left X) in H by lra]; apply Rabs_def2 in H; lra. Qed.

Lemma to_Q_fin x : fin x -> exists q, to_Q x = Some q /\ val x = Q2R q.
Proof.
  intro F. destruct (to_Q x) as [q |] eqn:E; [exists q; split; [reflexivity | apply (to_Q_val x q E)] |]. exfalso. destruct x; discriminate.
Qed.

Lemma lift_row3_ok x y z : fin x -> fin y -> fin z -> exists a b c, lift_row3 (x, y, z) = Value (a, b, c) /\ val x = Q2R a /\ val y = Q2R b /\ val z = Q2R c.
Proof.
  intros Fx Fy Fz. destruct (to_Q_fin x Fx) as (a & A & Ea). destruct (to_Q_fin y Fy) as (b & B & Eb). destruct (to_Q_fin z Fz) as (c & C & Ec).
  exists a, b, c. unfold lift_row3. rewrite A, B, C. repeat split; assumption.
Qed.

Lemma det_Q a0 a1 a2 b0 b1 b2 c0 c1 c2 : Q2R (determinant3x3 (a0, a1, a2) (b0, b1, b2) (c0, c1, c2)) = det3R (Q2R a0) (Q2R a1) (Q2R a2) (Q2R b0) (Q2R b1) (Q2R b2) (Q2R c0) (Q2R c1) (Q2R c2).
Proof. unfold determinant3x3, det3R. rewrite ?Q2R_minus, ?Q2R_plus, ?Q2R_mult, ?Q2R_minus, ?Q2R_mult. ring. Qed.

Section Answer.
  Variable s : nat -> f64.
  Hypothesis Hfin : forall i, fin (s i).
  Hypothesis Hmul : forall i, multiple (-52) (val (s i)).
  Hypothesis Hle : forall i, Rabs (val (s i)) <= 1.
  Hypothesis Hbig : 128 * u <= Rabs (exact_det s).
  Definition row_of (i j : nat) : frow3 := (s i, s j, fsq (s i) (s j)).

  Lemma det_sign_ok : (0 < exact_det s -> determinant_sign64 (row_of 0 1) (row_of 2 3) (row_of 4 5) = Value Positive) /\
    (exact_det s < 0 -> determinant_sign64 (row_of 0 1) (row_of 2 3) (row_of 4 5) = Value Negative).
  Proof.
    unfold determinant_sign64. cbv zeta. pose proof u_pos. destruct (compare_entries64 _ _).
    - destruct (direct s Hfin Hmul Hle) as (F & E). cbv zeta in F, E. unfold row_of in *. set (x := determinant3x3_64 _ _ _) in *.
      destruct (sign_of_near (val x) (exact_det s)) as (P & N); [lra |].
      destruct (fsign_val x F) as [[S ->] | [[S ->] | [S ->]]]; split; intro K; try reflexivity; exfalso; [apply N in K | apply P in K | apply P in K | apply N in K]; lra.
    - pose proof (rows_near s Hfin Hmul Hle) as E. cbv beta zeta in E.
      destruct (lift_row3_ok _ _ _ (Hfin 0%nat) (Hfin 1%nat) (proj1 (square s Hfin Hmul Hle 0 1))) as (a0 & a1 & a2 & EA & A0 & A1 & A2).
      destruct (lift_row3_ok _ _ _ (Hfin 2%nat) (Hfin 3%nat) (proj1 (square s Hfin Hmul Hle 2 3))) as (b0 & b1 & b2 & EB & B0 & B1 & B2).
      destruct (lift_row3_ok _ _ _ (Hfin 4%nat) (Hfin 5%nat) (proj1 (square s Hfin Hmul Hle 4 5))) as (c0 & c1 & c2 & EC & C0 & C1 & C2).
      unfold row_of. rewrite EA, EB, EC. cbn [bind]. rewrite A0, A1, A2, B0, B1, B2, C0, C1, C2, <- det_Q in E. set (x := determinant3x3 _ _ _) in *.
      destruct (sign_of_near (Q2R x) (exact_det s)) as (P & N); [lra |].
      split; intro K; f_equal.
      + apply P in K. apply Q2R_pos in K. unfold sign_of. rewrite (proj1 (Qgt_alt _ _) K). reflexivity.
      + apply N in K. apply Q2R_neg in K. unfold sign_of. rewrite (proj1 (Qlt_alt _ _) K). reflexivity.
  Qed.
End Answer.

Definition pick6 (l : list f64) (i : nat) : f64 := nth i l zero.

Theorem circle_decided t p T P o : represents_triangle2 t T -> represents2 p P -> unit_triangle2 T -> unit_square P -> (0 < area2 T)%Q -> circumscribed2 T o ->
  (1 # 2 ^ 46 <= area2 T * Qabs (dist2_2 o P - dist2_2 o (t2p1 T)))%Q ->
  in_circle64 t p = Value true /\ (dist2_2 o P < dist2_2 o (t2p1 T))%Q \/ in_circle64 t p = Value false /\ (dist2_2 o (t2p1 T) < dist2_2 o P)%Q.
Proof.
  intros ((P1x & P1y) & (P2x & P2y) & (P3x & P3y)) (X & Y) ((U1x & U1y) & (U2x & U2y) & (U3x & U3y)) (Vx & Vy) HA Hc Big. cbn [x2 y2] in *.
  pose proof (diff_ok _ _ _ _ P2x P1x U2x U1x) as (F0 & E0 & M0 & L0). pose proof (diff_ok _ _ _ _ P2y P1y U2y U1y) as (F1 & E1 & M1 & L1).
  pose proof (diff_ok _ _ _ _ P3x P1x U3x U1x) as (F2 & E2 & M2 & L2). pose proof (diff_ok _ _ _ _ P3y P1y U3y U1y) as (F3 & E3 & M3 & L3).
  pose proof (diff_ok _ _ _ _ X P1x Vx U1x) as (F4 & E4 & M4 & L4). pose proof (diff_ok _ _ _ _ Y P1y Vy U1y) as (F5 & E5 & M5 & L5).
  set (s := pick6 [sub (gx (ft22 t)) (gx (ft21 t)); sub (gy (ft22 t)) (gy (ft21 t)); sub (gx (ft23 t)) (gx (ft21 t)); sub (gy (ft23 t)) (gy (ft21 t)); sub (gx p) (gx (ft21 t)); sub (gy p) (gy (ft21 t))]).
  assert (Z : fin zero /\ multiple (-52) (val zero) /\ Rabs (val zero) <= 1).
  { split; [reflexivity |]. change (val zero) with 0. split; [exists 0%Z; lra | rewrite Rabs_R0; lra]. }
  assert (All : forall i, fin (s i) /\ multiple (-52) (val (s i)) /\ Rabs (val (s i)) <= 1).
  { intro i. unfold s, pick6. do 6 (destruct i as [|i]; [cbn [nth]; repeat split; assumption |]). destruct i; exact Z. }
  set (v := (area2 T * (dist2_2 o P - dist2_2 o (t2p1 T)))%Q).
  assert (Ev : exact_det s = Q2R v).
  { assert (V : (v == determinant3x3 (x2 (t2p2 T) - x2 (t2p1 T), y2 (t2p2 T) - y2 (t2p1 T), (x2 (t2p2 T) - x2 (t2p1 T)) * (x2 (t2p2 T) - x2 (t2p1 T)) + (y2 (t2p2 T) - y2 (t2p1 T)) * (y2 (t2p2 T) - y2 (t2p1 T)))
        (x2 (t2p3 T) - x2 (t2p1 T), y2 (t2p3 T) - y2 (t2p1 T), (x2 (t2p3 T) - x2 (t2p1 T)) * (x2 (t2p3 T) - x2 (t2p1 T)) + (y2 (t2p3 T) - y2 (t2p1 T)) * (y2 (t2p3 T) - y2 (t2p1 T)))
        (x2 P - x2 (t2p1 T), y2 P - y2 (t2p1 T), (x2 P - x2 (t2p1 T)) * (x2 P - x2 (t2p1 T)) + (y2 P - y2 (t2p1 T)) * (y2 P - y2 (t2p1 T))))%Q).
    { unfold v. destruct Hc as (H1 & H2). unfold area2, dist2_2, determinant3x3 in *. clear - H1 H2. destruct T as [[ax ay] [bx by_] [cx cy]], o as [ox oy], P as [dx dy]. cbn [t2p1 t2p2 t2p3 x2 y2] in *. symmetry.
      transitivity (((bx - ax) * (cy - ay) - (by_ - ay) * (cx - ax)) *
       (((ox - dx) * (ox - dx) + (oy - dy) * (oy - dy)) - ((ox - ax) * (ox - ax) + (oy - ay) * (oy - ay)))
       + (((ox - bx) * (ox - bx) + (oy - by_) * (oy - by_)) - ((ox - ax) * (ox - ax) + (oy - ay) * (oy - ay))) * ((cx - ax) * (dy - ay) - (cy - ay) * (dx - ax))
       - (((ox - cx) * (ox - cx) + (oy - cy) * (oy - cy)) - ((ox - ax) * (ox - ax) + (oy - ay) * (oy - ay))) * ((bx - ax) * (dy - ay) - (by_ - ay) * (dx - ax)))%Q.
      - ring.
      - rewrite H1, H2. ring. }
    rewrite (Qeq_eqR _ _ V), det_Q. unfold exact_det, circle_ex, sq2, ebx, eby, ecx, ecy, edx, edy, det3R. cbv zeta. cbn [evR]. unfold r, s, pick6. cbn [nth]. rewrite E0, E1, E2, E3, E4, E5. rewrite !Q2R_plus, !Q2R_mult. ring. }
  assert (Hbig : 128 * u <= Rabs (exact_det s)).
  { rewrite Ev, <- Q2R_Qabs. assert (W : (1 # 2 ^ 46 <= Qabs v)%Q) by (unfold v; rewrite Qabs_Qmult, (Qabs_pos (area2 T)) by (apply Qlt_le_weak; exact HA); exact Big).
    apply Qle_Rle in W. eapply Rle_trans; [| exact W]. rewrite u_value. unfold Q2R. cbn [Qnum Qden]. change (2 ^ 46)%positive with 70368744177664%positive. lra. }
  destruct (det_sign_ok s (fun i => proj1 (All i)) (fun i => proj1 (proj2 (All i))) (fun i => proj2 (proj2 (All i))) Hbig) as (Pos & Neg).
  assert (I : in_circle64 t p = bind (determinant_sign64 (row_of s 0 1) (row_of s 2 3) (row_of s 4 5)) (fun s => unwrap (option_map is_negative (panic_if_zero s)))) by reflexivity.
  rewrite I. rewrite Ev in *. destruct (Rtotal_order (Q2R v) 0) as [S | [S | S]].
  - rewrite (Neg S). left. split; [reflexivity |]. apply Q2R_neg in S. unfold v in S. apply Qnot_le_lt. intro K. apply (Qlt_not_le _ _ S). apply Qmult_le_0_compat; [apply Qlt_le_weak; exact HA |]. Lqa.lra.
  - exfalso. rewrite S, Rabs_R0 in Hbig. pose proof u_pos. lra.
  - rewrite (Pos S). right. split; [reflexivity |]. apply Q2R_pos in S. unfold v in S. apply Qnot_le_lt. intro K. apply (Qlt_not_le _ _ S).
    setoid_replace (area2 T * (dist2_2 o P - dist2_2 o (t2p1 T)))%Q with (- (area2 T * (dist2_2 o (t2p1 T) - dist2_2 o P)))%Q by ring.
    assert (0 <= area2 T * (dist2_2 o (t2p1 T) - dist2_2 o P))%Q by (apply Qmult_le_0_compat; [apply Qlt_le_weak; exact HA | Lqa.lra]). Lqa.lra.
Qed.
