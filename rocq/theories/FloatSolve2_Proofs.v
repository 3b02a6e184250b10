(** Proofs about the elimination with [f64] for two equations. *)
From Coq Require Import ZArith Reals Lra Lia Bool List Psatz.
From Flocq Require Import Core IEEE754.BinarySingleNaN Relative.
From Verif Require Import Geometry_Model Float_Model Float_Proofs Float_InSphere_Proofs Float_Contains_Proofs FloatFlip_Model FloatSolve_Proofs FloatFlip_Proofs.
Import ListNotations.
Open Scope R_scope.

Definition det2 (a0 a1 b0 b1 : f64) : R := val a0 * val b1 - val a1 * val b0.

Section Two.
  Variables p0 p1 p2 d0 d1 d2 : f64.
  Hypothesis Hp : ok1 p0 /\ ok1 p1 /\ ok1 p2.
  Hypothesis Hd : ok1 d0 /\ ok1 d1 /\ ok1 d2.
  Hypothesis Hd0 : Rabs (val d0) <= Rabs (val p0).
  Hypothesis Hdet : 128 * u <= Rabs (det2 p0 p1 d0 d1).

  Lemma q0_nonzero : val p0 <> 0.
  Proof.
    intro Z. rewrite Z, Rabs_R0 in Hd0. assert (val d0 = 0) by (pose proof (Rabs_pos (val d0)); destruct (Req_dec (val d0) 0) as [|N]; [assumption | apply Rabs_pos_lt in N; lra]).
    assert (D : det2 p0 p1 d0 d1 = 0) by (unfold det2; rewrite Z, H; ring). pose proof Hdet as K. rewrite D, Rabs_R0 in K. pose proof u_small. lra.
  Qed.

  Definition f1 : R := val d0 / val p0.
  Lemma f1_le : Rabs f1 <= 1.
  Proof. apply abs_div_le; [exact Hd0 | exact q0_nonzero]. Qed.
  Definition t1 (b g : f64) : f64 := sub b (mul g (div d0 p0)).
  Lemma first2 b g : ok1 b -> ok1 g -> fin (t1 b g) /\ Rabs (val (t1 b g)) <= 2 /\ Rabs (val (t1 b g) - (val b - val g * f1)) <= 2 * u.
  Proof.
    intros (Fb & Bb) (Fg & Bg). destruct Hd as ((Fd & _) & _).
    destruct (step_ok 0 b g d0 p0 ltac:(lia) Fb Fg Fd Bb Bg Hd0 q0_nonzero) as (A & B & C). split; [exact A |]. split; [exact B |].
    change (bpow radix2 0) with 1 in C. rewrite u_h. eapply Rle_trans; [exact C | lra].
  Qed.

  Lemma pivots2 : 30 * u <= Rabs (val p0) /\ 30 * u <= Rabs (val (t1 d1 p1)).
  Proof.
    pose proof Hp as (P0 & P1 & P2). pose proof Hd as (D0 & D1 & D2). pose proof (first2 d1 p1 D1 P1) as (_ & L & N). pose proof u_small as (U & _).
    assert (E : det2 p0 p1 d0 d1 = val p0 * (val d1 - val p1 * f1)) by (unfold det2, f1; field; exact q0_nonzero).
    pose proof Hdet as K. rewrite E, Rabs_mult in K. destruct P0 as (_ & L0). rewrite Rabs_minus_sym in N. pose proof (abs_le_add _ _ _ N) as L'.
    set (A := Rabs (val p0)) in *. set (B := Rabs (val (t1 d1 p1))) in *. set (C := Rabs (val d1 - val p1 * f1)) in *.
    assert (0 <= A) by apply Rabs_pos. assert (0 <= B) by apply Rabs_pos. assert (0 <= C) by apply Rabs_pos.
    assert (A * C <= A * (B + 2 * u)) by (apply Rmult_le_compat_l; assumption). assert (A * (2 * u) <= 1 * (2 * u)) by (apply Rmult_le_compat_r; lra).
    assert (A * B <= A * 2) by (apply Rmult_le_compat_l; lra). assert (A * B <= 1 * B) by (apply Rmult_le_compat_r; lra). lra.
  Qed.

  (** ** The computed solution *)
  Definition w2 : f64 := div (t1 d2 p2) (t1 d1 p1).
  Definition w1 : f64 := div (sub p2 (mul p1 w2)) p0.
  Definition N2 : R := 1 + Rabs (val w1) + Rabs (val w2).

  Lemma b49 : bpow radix2 (- 49) <= 30 * u.
  Proof. rewrite u_eq. cbn. lra. Qed.

  Lemma lower_row : fin w2 /\ Rabs (val w2) <= bpow radix2 52 /\ Rabs (val (t1 d1 p1) * val w2 - val (t1 d2 p2)) <= 4 * u.
  Proof.
    pose proof Hp as (P0 & P1 & P2). pose proof Hd as (D0 & D1 & D2). pose proof (first2 d1 p1 D1 P1) as (_ & L1 & _). pose proof (first2 d2 p2 D2 P2) as (Fb & Lb & _).
    destruct pivots2 as (_ & K'). assert (K : bpow radix2 (- 49) <= Rabs (val (t1 d1 p1))) by (pose proof b49; lra). pose proof (nonzero_of _ 49 K) as NZ. unfold w2. set (T := t1 d1 p1) in *. set (b := t1 d2 p2) in *.
    pose proof u_small. destruct (div_any b T Fb NZ) as (F & E).
    { apply (le_900 _ (1 + 49)); [lia |]. apply (div_bound _ _ 2); [exact Lb | exact K | cbn; lra]. }
    assert (E' : Rabs (val T * val (div b T) - val b) <= 4 * u) by (eapply Rle_trans; [exact E |]; nra).
    split; [exact F |]. split; [| exact E'].
    apply (quot_le (val T) _ 3 3 49); [| exact K | cbn; lra]. pose proof (abs_le_add _ _ _ E'). lra.
  Qed.

  Lemma upper_row : fin w1 /\ Rabs (val p0 * val w1 + val p1 * val w2 - val p2) <= 6 * u * (1 + Rabs (val w2)).
  Proof.
    pose proof Hp as ((F0 & L0) & (F1' & L1) & (F2' & L2)).
    destruct pivots2 as (K' & _). assert (K : bpow radix2 (- 49) <= Rabs (val p0)) by (pose proof b49; lra). pose proof (nonzero_of _ 49 K) as NZ. destruct lower_row as (Fy & Ly & _). unfold w1.
    set (y := val w2) in *. pose proof u_small as U. pose proof (Rabs_pos y) as Y0.
    assert (B2 : bpow radix2 52 = 4503599627370496) by reflexivity. assert (B3 : bpow radix2 60 = 1152921504606846976) by reflexivity.
    assert (Pg : Rabs (val p1 * y) <= Rabs y) by (rewrite Rabs_mult; nra).
    destruct (mul_any p1 w2 F1' Fy) as (Fm & Em). { fold y. apply (le_900 _ 60); [lia |]. lra. } fold y in Em.
    set (m := val (mul p1 w2)) in *.
    assert (Em' : Rabs (m - val p1 * y) <= u * (Rabs y + 1)) by (eapply Rle_trans; [exact Em |]; apply Rmult_le_compat_l; lra).
    assert (Em2 : u * (Rabs y + 1) <= / 1000000 * (Rabs y + 1)) by (apply Rmult_le_compat_r; lra).
    assert (Lm : Rabs m <= Rabs y + / 1000000 * (Rabs y + 1)) by (pose proof (abs_le_add _ _ _ Em'); lra).
    assert (Lbm : Rabs (val p2 - m) <= 1 + Rabs y + / 1000000 * (Rabs y + 1)) by (eapply Rle_trans; [apply Rabs_triang |]; rewrite Rabs_Ropp; lra).
    destruct (sub_any p2 (mul p1 w2) F2' Fm) as (Fv & Ev). { fold m. apply (le_900 _ 60); [lia |]. lra. } fold m in Ev. set (v := sub p2 (mul p1 w2)) in *.
    assert (Ev' : Rabs (val v - (val p2 - m)) <= u * (2 + Rabs y + / 1000 * (Rabs y + 1))) by (eapply Rle_trans; [exact Ev |]; apply Rmult_le_compat_l; lra).
    assert (Ev2 : u * (2 + Rabs y + / 1000 * (Rabs y + 1)) <= / 1000000 * (2 + Rabs y + / 1000 * (Rabs y + 1))) by (apply Rmult_le_compat_r; lra).
    assert (Lv : Rabs (val v) <= 1 + Rabs y + / 1000 * (Rabs y + 1)) by (pose proof (abs_le_add _ _ _ Ev'); lra).
    destruct (div_any v p0 Fv NZ) as (F & E).
    { apply (le_900 _ (60 + 49)); [lia |]. apply (div_bound _ _ (1 + Rabs y + / 1000 * (Rabs y + 1))); [exact Lv | exact K | lra]. }
    assert (E' : Rabs (val p0 * val (div v p0) - val v) <= u * (2 + Rabs y + / 1000 * (Rabs y + 1))) by (eapply Rle_trans; [exact E |]; apply Rmult_le_compat_l; lra).
    split; [exact F |].
    replace (val p0 * val (div v p0) + val p1 * y - val p2) with ((val p0 * val (div v p0) - val v) + ((val v - (val p2 - m)) + - (m - val p1 * y))) by ring.
    eapply Rle_trans; [apply Rabs_triang |]. assert (X2 : Rabs ((val v - (val p2 - m)) + - (m - val p1 * y)) <= u * (2 + Rabs y + / 1000 * (Rabs y + 1)) + u * (Rabs y + 1)).
    { eapply Rle_trans; [apply Rabs_triang |]. rewrite Rabs_Ropp. lra. }
    assert (u * (2 + Rabs y + / 1000 * (Rabs y + 1)) + (u * (2 + Rabs y + / 1000 * (Rabs y + 1)) + u * (Rabs y + 1)) <= u * (6 * (1 + Rabs y)))
      by (rewrite <- !Rmult_plus_distr_l; apply Rmult_le_compat_l; lra).
    lra.
  Qed.

  Theorem residuals2 : Rabs (val p0 * val w1 + val p1 * val w2 - val p2) <= 12 * u * N2 /\ Rabs (val d0 * val w1 + val d1 * val w2 - val d2) <= 12 * u * N2.
  Proof.
    pose proof Hp as (P0 & P1 & P2). pose proof Hd as (D0 & D1 & D2). destruct (first2 d1 p1 D1 P1) as (_ & _ & C1). destruct (first2 d2 p2 D2 P2) as (_ & _ & C2).
    destruct lower_row as (_ & _ & R2). destruct upper_row as (_ & R1). pose proof u_small as (U & _).
    set (x := val w1) in *. set (y := val w2) in *. pose proof (Rabs_pos x) as X. pose proof (Rabs_pos y) as Y.
    assert (N1 : 1 + Rabs y <= N2) by (unfold N2; fold x y; lra). assert (UN : u * (1 + Rabs y) <= u * N2) by (apply Rmult_le_compat_l; lra).
    assert (0 <= u * Rabs y) by (apply Rmult_le_pos; lra). assert (UY : u <= u * N2) by lra.
    split; [lra |].
    assert (T1 := times_le _ _ _ f1_le R1).
    assert (K1 : f1 * val p0 = val d0) by (unfold f1; field; exact q0_nonzero). rewrite <- K1.
    pose proof (change2 0 _ _ 0 _ _ 0 y (2 * u) ltac:(rewrite Rminus_0_r, Rabs_R0; lra) C1 C2 ltac:(lra)) as C. rewrite Rabs_R0, !Rmult_0_l, !Rplus_0_l, Rplus_0_r in C.
    set (A := f1 * (val p0 * x + val p1 * y - val p2)) in *. set (B := val (t1 d1 p1) * y - val (t1 d2 p2)) in *. set (C' := (val d1 - val p1 * f1) * y - (val d2 - val p2 * f1)) in *.
    replace (f1 * val p0 * x + val d1 * y - val d2) with (A + (B + (C' - B))) by (unfold A, C'; ring).
    eapply Rle_trans; [apply Rabs_triang |]. assert (Rabs (B + (C' - B)) <= 4 * u + 2 * u * (1 + Rabs y)) by (eapply Rle_trans; [apply Rabs_triang |]; lra). lra.
  Qed.

  (** ** Distance from the exact solution *)
  Lemma cramers2 r1 r2 y1 y2 e : val p0 * y1 + val p1 * y2 = r1 -> val d0 * y1 + val d1 * y2 = r2 -> Rabs r1 <= e -> Rabs r2 <= e ->
    Rabs (det2 p0 p1 d0 d1) * Rabs y1 <= 2 * e /\ Rabs (det2 p0 p1 d0 d1) * Rabs y2 <= 2 * e.
  Proof.
    pose proof Hp as ((_ & P0) & (_ & P1) & _). pose proof Hd as ((_ & D0) & (_ & D1) & _). intros A B L1 L2.
    assert (M : forall a b c d, Rabs a <= e -> Rabs b <= 1 -> Rabs c <= e -> Rabs d <= 1 -> Rabs (a * b - c * d) <= 2 * e).
    { intros a b c d Ha Hb Hc Hd'. eapply Rle_trans; [apply Rabs_triang |]. rewrite Rabs_Ropp, !Rabs_mult. pose proof (Rabs_pos a). pose proof (Rabs_pos b). pose proof (Rabs_pos c). pose proof (Rabs_pos d).
      assert (Rabs a * Rabs b <= e * 1) by (apply Rmult_le_compat; assumption). assert (Rabs c * Rabs d <= e * 1) by (apply Rmult_le_compat; assumption). lra. }
    rewrite <- !Rabs_mult. unfold det2. split.
    - replace ((val p0 * val d1 - val p1 * val d0) * y1) with (r1 * val d1 - r2 * val p1) by (rewrite <- A, <- B; ring). apply M; assumption.
    - replace ((val p0 * val d1 - val p1 * val d0) * y2) with (r2 * val p0 - r1 * val d0) by (rewrite <- A, <- B; ring). apply M; assumption.
  Qed.

  Theorem close2 x1 x2 : val p0 * x1 + val p1 * x2 = val p2 -> val d0 * x1 + val d1 * x2 = val d2 ->
    Rabs (det2 p0 p1 d0 d1) * N2 <= 12 /\ Rabs (det2 p0 p1 d0 d1) * Rabs (val w1 - x1) <= 24 * u * N2 /\ Rabs (det2 p0 p1 d0 d1) * Rabs (val w2 - x2) <= 24 * u * N2.
  Proof.
    intros S1 S2. destruct residuals2 as (R1 & R2). pose proof u_small as (U & _).
    assert (N0 : 1 <= N2) by (unfold N2; pose proof (Rabs_pos (val w1)); pose proof (Rabs_pos (val w2)); lra).
    destruct (cramers2 (val p0 * val w1 + val p1 * val w2 - val p2) (val d0 * val w1 + val d1 * val w2 - val d2) (val w1 - x1) (val w2 - x2) _ ltac:(rewrite <- S1; ring) ltac:(rewrite <- S2; ring) R1 R2) as (A1 & A2).
    pose proof Hp as ((_ & P0) & (_ & P1) & (_ & P2)). pose proof Hd as ((_ & D0) & (_ & D1) & (_ & D2)).
    destruct (cramers2 _ _ x1 x2 1 S1 S2 P2 D2) as (B1 & B2). destruct (cramers2 (val p0) (val d0) 1 0 1 ltac:(ring) ltac:(ring) P0 D0) as (B0 & _). rewrite Rabs_R1 in B0.
    pose proof (Rabs_pos (det2 p0 p1 d0 d1)) as D'.
    assert (T : forall c x, Rabs c <= Rabs x + Rabs (c - x)) by (intros c x; apply abs_le_add; lra).
    pose proof (Rmult_le_compat_l _ _ _ D' (T (val w1) x1)). pose proof (Rmult_le_compat_l _ _ _ D' (T (val w2) x2)).
    split; [| split; lra].
    assert (M : Rabs (det2 p0 p1 d0 d1) * N2 <= 6 + 48 * u * N2) by (unfold N2 at 1; lra).
    assert (48 * u * N2 <= / 2 * Rabs (det2 p0 p1 d0 d1) * N2) by (apply Rmult_le_compat_r; lra). lra.
  Qed.
End Two.

(** A computed solution that is close to the exact one. *)
Definition solved2 (o : answer (list f64)) (det x1 x2 : R) : Prop :=
  exists y1 y2, o = Value [y1; y2] /\ fin y1 /\ fin y2 /\
  let n := 1 + Rabs (val y1) + Rabs (val y2) in
  Rabs det * n <= 12 /\ Rabs det * Rabs (val y1 - x1) <= 24 * u * n /\ Rabs det * Rabs (val y2 - x2) <= 24 * u * n.
Definition row2_ok (a0 a1 a2 : f64) : Prop := ok1 a0 /\ ok1 a1 /\ ok1 a2.
Definition rows2 (a0 a1 a2 b0 b1 b2 : f64) : matrix64 := [[a0; a1; a2]; [b0; b1; b2]].

Lemma after_first2 p0 p1 p2 d0 d1 d2 x1 x2 : row2_ok p0 p1 p2 -> row2_ok d0 d1 d2 -> Rabs (val d0) <= Rabs (val p0) -> 128 * u <= Rabs (det2 p0 p1 d0 d1) ->
  val p0 * x1 + val p1 * x2 = val p2 -> val d0 * x1 + val d1 * x2 = val d2 ->
  solved2 (bind (eliminate_all64 2 2 3 (rows2 p0 p1 p2 zero (t1 p0 d0 d1 p1) (t1 p0 d0 d2 p2)) 1 1) (fun a => Value (backward64 2 a 2 []))) (det2 p0 p1 d0 d1) x1 x2.
Proof.
  intros Hp Hd Hd0 Hdet S1 S2. pose proof u_small as (U & _). destruct (pivots2 _ _ _ _ _ _ Hp Hd Hd0 Hdet) as (_ & K).
  assert (FT : fin (t1 p0 d0 d1 p1)) by (apply (first2 p0 p1 d0 d1 d2 Hd Hd0 Hdet d1 p1); [apply Hd | apply Hp]).
  cbn [eliminate_all64 Nat.ltb Nat.leb andb]. change (pivot_row64 (rows2 p0 p1 p2 zero (t1 p0 d0 d1 p1) (t1 p0 d0 d2 p2)) 2 1 1) with (@Value nat 1%nat). cbn [bind].
  replace (is_zero (get64 (rows2 p0 p1 p2 zero (t1 p0 d0 d1 p1) (t1 p0 d0 d2 p2)) 1 1)) with false.
  2: { symmetry. apply is_zero_false; [exact FT |]. cbn [get64 rows2 nth]. intro Z. rewrite Z, Rabs_R0 in K. lra. }
  exists (w1 p0 p1 p2 d0 d1 d2), (w2 p0 p1 p2 d0 d1 d2). split; [reflexivity |].
  destruct (lower_row _ _ _ _ _ _ Hp Hd Hd0 Hdet) as (F2 & _). destruct (upper_row _ _ _ _ _ _ Hp Hd Hd0 Hdet) as (F1 & _).
  split; [exact F1 |]. split; [exact F2 |]. exact (close2 _ _ _ _ _ _ Hp Hd Hd0 Hdet x1 x2 S1 S2).
Qed.

Theorem solve2_ok a0 a1 a2 b0 b1 b2 x1 x2 : row2_ok a0 a1 a2 -> row2_ok b0 b1 b2 -> 128 * u <= Rabs (det2 a0 a1 b0 b1) ->
  val a0 * x1 + val a1 * x2 = val a2 -> val b0 * x1 + val b1 * x2 = val b2 ->
  solved2 (solve64 2 [[a0; a1; a2]; [b0; b1; b2]]) (det2 a0 a1 b0 b1) x1 x2.
Proof.
  intros Ha Hb Hdet S1 S2. pose proof Ha as ((FA & _) & _). pose proof Hb as ((FB & _) & _). change [[a0; a1; a2]; [b0; b1; b2]] with (rows2 a0 a1 a2 b0 b1 b2).
  unfold solve64. change (2 + 1)%nat with 3%nat. cbn [eliminate_all64 Nat.ltb Nat.leb andb]. unfold pivot_row64 at 1. cbn [seq Nat.add Nat.sub fold_left].
  destruct (larger_ok (rows2 a0 a1 a2 b0 b1 b2) 0 0 1 FA FB) as [(E & L) | (E & L)]; rewrite E; cbn [bind get64 rows2 nth] in *.
  - pose proof (q0_nonzero _ _ _ _ L Hdet) as NZ. change (nth 0 (nth 0 (rows2 a0 a1 a2 b0 b1 b2) []) zero) with a0. rewrite (is_zero_false a0 FA NZ).
    exact (after_first2 _ _ _ _ _ _ _ _ Ha Hb L Hdet S1 S2).
  - assert (D : det2 a0 a1 b0 b1 = - det2 b0 b1 a0 a1) by (unfold det2; ring). rewrite D, Rabs_Ropp in Hdet.
    pose proof (q0_nonzero _ _ _ _ L Hdet) as NZ. rewrite (is_zero_false b0 FB NZ).
    pose proof (after_first2 _ _ _ _ _ _ _ _ Hb Ha L Hdet S2 S1) as Q. rewrite D. unfold solved2 in *. rewrite Rabs_Ropp. exact Q.
Qed.
