(** Proofs about the elimination with [f64]: the computed solution nearly satisfies the equations, and is close to the exact
    solution if the determinant is not small. *)
From Coq Require Import ZArith Reals Lra Lia Bool List Psatz.
From Flocq Require Import Core IEEE754.BinarySingleNaN Relative.
From Verif Require Import Geometry_Model Float_Model Float_Proofs Float_InSphere_Proofs Float_Contains_Proofs FloatFlip_Model.
Import ListNotations.
Open Scope R_scope.

Lemma u_h : u = 2 * h.
Proof. rewrite u_eq, h_eq. lra. Qed.
Lemma h_pos : 0 < h.
Proof. apply bpow_gt_0. Qed.

(** The error of a rounding in general. *)
Lemma rnd_any x : Rabs (rnd x - x) <= u * (Rabs x + 1).
Proof.
  destruct (Rle_or_lt (bpow radix2 (-1022)) (Rabs x)) as [H | H].
  - eapply Rle_trans; [apply (rnd_rel x H) |]. pose proof u_pos. lra.
  - eapply Rle_trans; [apply (rnd_err x (-54)); [lia | apply Rlt_le; eapply Rlt_le_trans; [exact H | apply bpow_le; lia]] |].
    apply Rle_trans with u; [apply bpow_le; lia |]. pose proof u_pos. pose proof (Rabs_pos x). nra.
Qed.

Lemma abs_div_le x y : Rabs x <= Rabs y -> y <> 0 -> Rabs (x / y) <= 1.
Proof.
  intros H N. unfold Rdiv. rewrite Rabs_mult, Rabs_inv. pose proof (Rabs_pos_lt y N).
  apply (Rmult_le_reg_r (Rabs y)); [assumption |]. rewrite Rmult_assoc, Rinv_l by lra. lra.
Qed.

(** ** One entry of the elimination *)
Section Step.
  Variables (e : Z) (b g a p : f64).
  Hypothesis He : (0 <= e <= 900)%Z.
  Hypothesis Fb : fin b.
  Hypothesis Fg : fin g.
  Hypothesis Fa : fin a.
  Hypothesis Fp : fin p.
  Hypothesis Hb : Rabs (val b) <= bpow radix2 e.
  Hypothesis Hg : Rabs (val g) <= bpow radix2 e.
  Hypothesis Ha : Rabs (val a) <= Rabs (val p).
  Hypothesis Hp : val p <> 0.

  Lemma factor_ok : fin (div a p) /\ Rabs (val (div a p)) <= 1 /\ Rabs (val (div a p) - val a / val p) <= h.
  Proof.
    pose proof (abs_div_le _ _ Ha Hp) as L. change 1 with (bpow radix2 0) in L.
    destruct (div_val a p Fa Hp (small _ 0 ltac:(lia) L)) as (F & ->). split; [exact F |]. split.
    - apply (rnd_abs_le _ 0); [lia | exact L].
    - apply (rnd_err _ 0); [lia | exact L].
  Qed.

  Lemma step_ok : let v := sub b (mul g (div a p)) in
    fin v /\ Rabs (val v) <= bpow radix2 (e + 1) /\ Rabs (val v - (val b - val g * (val a / val p))) <= 4 * bpow radix2 e * h.
  Proof.
    cbv zeta. destruct factor_ok as (Ff & Lf & Ef). set (f := div a p) in *. set (F := val a / val p) in *.
    assert (L1 : Rabs (val g * val f) <= bpow radix2 e).
    { rewrite Rabs_mult. rewrite <- (Rmult_1_r (bpow radix2 e)). apply Rmult_le_compat; auto using Rabs_pos. }
    destruct (mul_val g f Fg Ff (small _ e ltac:(lia) L1)) as (Fm & Vm).
    pose proof (rnd_abs_le _ e ltac:(lia) L1) as Lm. pose proof (rnd_err _ e ltac:(lia) L1) as Em. rewrite <- Vm in Lm, Em.
    assert (B2 : bpow radix2 (e + 1) = 2 * bpow radix2 e) by (rewrite bpow_plus; change (bpow radix2 1) with 2; ring).
    assert (L2 : Rabs (val b - val (mul g f)) <= bpow radix2 (e + 1)).
    { eapply Rle_trans; [apply Rabs_triang |]. rewrite Rabs_Ropp, B2. lra. }
    destruct (sub_val b (mul g f) Fb Fm (small _ (e + 1) ltac:(lia) L2)) as (Fv & Vv).
    pose proof (rnd_abs_le _ (e + 1) ltac:(lia) L2) as Lv. pose proof (rnd_err _ (e + 1) ltac:(lia) L2) as Ev. rewrite <- Vv in Lv, Ev.
    split; [exact Fv |]. split; [exact Lv |].
    replace (bpow radix2 (e - 54)) with (bpow radix2 e * h) in Em by (unfold h; rewrite <- bpow_plus; f_equal; lia).
    replace (bpow radix2 (e + 1 - 54)) with (2 * bpow radix2 e * h) in Ev by (rewrite <- B2; unfold h; rewrite <- bpow_plus; f_equal; lia).
    replace (val (sub b (mul g f)) - (val b - val g * F)) with ((val (sub b (mul g f)) - (val b - val (mul g f))) + (- (val (mul g f) - val g * val f) - val g * (val f - F))) by ring.
    eapply Rle_trans; [apply Rabs_triang |]. assert (K : Rabs (- (val (mul g f) - val g * val f) - val g * (val f - F)) <= bpow radix2 e * h + bpow radix2 e * h).
    { eapply Rle_trans; [apply Rabs_triang |]. rewrite !Rabs_Ropp, Rabs_mult. apply Rplus_le_compat; [exact Em |]. apply Rmult_le_compat; auto using Rabs_pos. }
    lra.
  Qed.
End Step.

(** ** Substitution *)
(** Products, differences and quotients with factors of any size. *)
Lemma mul_any x y : fin x -> fin y -> Rabs (val x * val y) <= bpow radix2 900 -> fin (mul x y) /\ Rabs (val (mul x y) - val x * val y) <= u * (Rabs (val x * val y) + 1).
Proof. intros Fx Fy H. destruct (mul_val x y Fx Fy (small _ 900 ltac:(lia) H)) as (F & ->). split; [exact F | apply rnd_any]. Qed.
Lemma sub_any x y : fin x -> fin y -> Rabs (val x - val y) <= bpow radix2 900 -> fin (sub x y) /\ Rabs (val (sub x y) - (val x - val y)) <= u * (Rabs (val x - val y) + 1).
Proof. intros Fx Fy H. destruct (sub_val x y Fx Fy (small _ 900 ltac:(lia) H)) as (F & ->). split; [exact F | apply rnd_any]. Qed.
Lemma add_any x y : fin x -> fin y -> Rabs (val x + val y) <= bpow radix2 900 -> fin (add x y) /\ Rabs (val (add x y) - (val x + val y)) <= u * (Rabs (val x + val y) + 1).
Proof. intros Fx Fy H. destruct (add_val x y Fx Fy (small _ 900 ltac:(lia) H)) as (F & ->). split; [exact F | apply rnd_any]. Qed.
Lemma div_any x y : fin x -> val y <> 0 -> Rabs (val x / val y) <= bpow radix2 900 ->
  fin (div x y) /\ Rabs (val y * val (div x y) - val x) <= u * (Rabs (val x) + Rabs (val y)).
Proof.
  intros Fx N H. destruct (div_val x y Fx N (small _ 900 ltac:(lia) H)) as (F & ->). split; [exact F |].
  replace (val y * rnd (val x / val y) - val x) with (val y * (rnd (val x / val y) - val x / val y)) by (field; exact N).
  rewrite Rabs_mult. eapply Rle_trans; [apply Rmult_le_compat_l; [apply Rabs_pos | apply rnd_any] |].
  replace (Rabs (val x)) with (Rabs (val y) * Rabs (val x / val y)); [lra |].
  rewrite <- Rabs_mult. f_equal. field. exact N.
Qed.

(** A quotient is not too large if the denominator is not too small. *)
Lemma div_bound x y X m n : Rabs x <= X -> bpow radix2 (- m) <= Rabs y -> X <= bpow radix2 n -> Rabs (x / y) <= bpow radix2 (n + m).
Proof.
  intros Hx Hy HX. pose proof (bpow_gt_0 radix2 (- m)). unfold Rdiv. rewrite Rabs_mult, Rabs_inv, bpow_plus.
  apply Rmult_le_compat; [apply Rabs_pos | apply Rlt_le, Rinv_0_lt_compat; lra | lra |].
  replace (bpow radix2 m) with (/ bpow radix2 (- m)) by (rewrite bpow_opp, Rinv_inv; reflexivity). apply Rinv_le; assumption.
Qed.

Lemma abs_le_add x y e : Rabs (y - x) <= e -> Rabs y <= Rabs x + e.
Proof. intro H. replace y with (x + (y - x)) by ring. eapply Rle_trans; [apply Rabs_triang |]. lra. Qed.

Lemma nonzero_of y m : bpow radix2 (- m) <= Rabs y -> y <> 0.
Proof. intros H ->. rewrite Rabs_R0 in H. pose proof (bpow_gt_0 radix2 (- m)). lra. Qed.

Lemma u_small : 0 < u <= / 1000000.
Proof. rewrite u_eq. lra. Qed.

Lemma prod_near a A b B : Rabs (A - a) <= 4 * h -> Rabs (B - b) <= 4 * h -> Rabs A <= 2 -> Rabs B <= 2 -> Rabs (a * b - A * B) <= 17 * h.
Proof.
  intros H1 H2 H3 H4. pose proof h_pos. assert (h <= / 1000) by (rewrite h_eq; lra).
  assert (Hb : Rabs b <= 2 + 4 * h). { rewrite (Rabs_minus_sym B b) in H2. pose proof (abs_le_add _ _ _ H2). lra. }
  replace (a * b - A * B) with ((- (A - a)) * b + A * (- (B - b))) by ring. eapply Rle_trans; [apply Rabs_triang |]. rewrite !Rabs_mult, !Rabs_Ropp.
  assert (Rabs (A - a) * Rabs b <= 4 * h * (2 + 4 * h)) by (apply Rmult_le_compat; auto using Rabs_pos).
  assert (Rabs A * Rabs (B - b) <= 2 * (4 * h)) by (apply Rmult_le_compat; auto using Rabs_pos). nra.
Qed.

Lemma quot_le y x K k m : Rabs (y * x) <= K -> bpow radix2 (- m) <= Rabs y -> K <= bpow radix2 k -> Rabs x <= bpow radix2 (k + m).
Proof.
  intros H1 H2 H3. rewrite bpow_plus. rewrite Rabs_mult in H1. pose proof (Rabs_pos x). pose proof (bpow_gt_0 radix2 (- m)).
  assert (Rabs x * bpow radix2 (- m) <= bpow radix2 k) by nra.
  apply (Rmult_le_reg_r (bpow radix2 (- m))); [assumption |]. rewrite Rmult_assoc, <- bpow_plus, Z.add_opp_diag_r. cbn [bpow]. lra.
Qed.

Lemma le_900 x k : (k <= 900)%Z -> Rabs x <= bpow radix2 k -> Rabs x <= bpow radix2 900.
Proof. intros H1 H2. eapply Rle_trans; [exact H2 | apply bpow_le; exact H1]. Qed.

Lemma bp e : (0 <= e)%Z -> bpow radix2 e = IZR (2 ^ e).
Proof. intro H. symmetry. apply (IZR_Zpower radix2). exact H. Qed.

Section Three.
  Variables p0 p1 p2 p3 d0 d1 d2 d3 e0 e1 e2 e3 : f64.
  Definition ok1 (x : f64) : Prop := fin x /\ Rabs (val x) <= 1.
  Hypothesis Hp : ok1 p0 /\ ok1 p1 /\ ok1 p2 /\ ok1 p3.
  Hypothesis Hd : ok1 d0 /\ ok1 d1 /\ ok1 d2 /\ ok1 d3.
  Hypothesis He : ok1 e0 /\ ok1 e1 /\ ok1 e2 /\ ok1 e3.
  Hypothesis Hd0 : Rabs (val d0) <= Rabs (val p0).
  Hypothesis He0 : Rabs (val e0) <= Rabs (val p0).
  Definition s1 (b g a : f64) : f64 := sub b (mul g (div a p0)).
  Hypothesis He1 : Rabs (val (s1 e1 p1 e0)) <= Rabs (val (s1 d1 p1 d0)).
  Definition s2 (b g : f64) : f64 := sub b (mul g (div (s1 e1 p1 e0) (s1 d1 p1 d0))).
  Definition det3 : R := val p0 * (val d1 * val e2 - val d2 * val e1) - val p1 * (val d0 * val e2 - val d2 * val e0) + val p2 * (val d0 * val e1 - val d1 * val e0).
  Hypothesis Hdet : bpow radix2 (-42) <= Rabs det3.

  Lemma p0_nonzero : val p0 <> 0.
  Proof.
    intro Z. rewrite Z, Rabs_R0 in Hd0, He0. assert (val d0 = 0) by (pose proof (Rabs_pos (val d0)); destruct (Req_dec (val d0) 0) as [|N]; [assumption | apply Rabs_pos_lt in N; lra]).
    assert (val e0 = 0) by (pose proof (Rabs_pos (val e0)); destruct (Req_dec (val e0) 0) as [|N]; [assumption | apply Rabs_pos_lt in N; lra]).
    assert (D : det3 = 0) by (unfold det3; rewrite Z, H, H0; ring). pose proof Hdet as K. rewrite D, Rabs_R0 in K. pose proof (bpow_gt_0 radix2 (-42)). lra.
  Qed.

  Definition F1 : R := val d0 / val p0.
  Definition F2 : R := val e0 / val p0.
  Definition near1 (v : f64) (x : R) : Prop := fin v /\ Rabs (val v) <= 2 /\ Rabs (val v - x) <= 4 * h.

  Lemma first b g a : ok1 b -> ok1 g -> fin a -> Rabs (val a) <= Rabs (val p0) -> near1 (s1 b g a) (val b - val g * (val a / val p0)).
  Proof.
    intros (Fb & Bb) (Fg & Bg) Fa La. destruct Hp as ((Fp & _) & _).
    destruct (step_ok 0 b g a p0 ltac:(lia) Fb Fg Fa Bb Bg La p0_nonzero) as (A & B & C). split; [exact A |]. split; [exact B |].
    change (bpow radix2 0) with 1 in C. eapply Rle_trans; [exact C | lra].
  Qed.
  Lemma first_d b g : ok1 b -> ok1 g -> near1 (s1 b g d0) (val b - val g * F1).
  Proof. intros. apply first; try assumption. apply Hd. Qed.
  Lemma first_e b g : ok1 b -> ok1 g -> near1 (s1 b g e0) (val b - val g * F2).
  Proof. intros. apply first; try assumption. apply He. Qed.

  Lemma det_first : det3 = val p0 * ((val d1 - val p1 * F1) * (val e2 - val p2 * F2) - (val d2 - val p2 * F1) * (val e1 - val p1 * F2)).
  Proof. unfold det3, F1, F2. field. exact p0_nonzero. Qed.

  Lemma det_near : Rabs det3 <= Rabs (val p0) * (Rabs (val (s1 d1 p1 d0) * val (s1 e2 p2 e0) - val (s1 d2 p2 d0) * val (s1 e1 p1 e0)) + 34 * h).
  Proof.
    destruct Hp as (P0 & P1 & P2 & P3), Hd as (D0 & D1 & D2 & D3), He as (E0 & E1 & E2 & E3).
    destruct (first_d d1 p1 D1 P1) as (_ & L1 & N1). destruct (first_e e2 p2 E2 P2) as (_ & L2 & N2). destruct (first_d d2 p2 D2 P2) as (_ & L3 & N3). destruct (first_e e1 p1 E1 P1) as (_ & L4 & N4).
    pose proof (prod_near _ _ _ _ N1 N2 L1 L2) as X. pose proof (prod_near _ _ _ _ N3 N4 L3 L4) as Y.
    rewrite det_first, Rabs_mult. apply Rmult_le_compat_l; [apply Rabs_pos |].
    match type of X with Rabs (?a - ?A) <= _ => match type of Y with Rabs (?b - ?B) <= _ => replace (a - b) with ((A - B) + ((a - A) - (b - B))) by ring end end.
    eapply Rle_trans; [apply Rabs_triang |]. apply Rplus_le_compat_l. eapply Rle_trans; [apply Rabs_triang |]. rewrite Rabs_Ropp. lra.
  Qed.

  Lemma h42 : bpow radix2 (-42) = 4096 * h.
  Proof. unfold h. change 4096 with (bpow radix2 12). rewrite <- bpow_plus. reflexivity. Qed.

  Lemma d1_nonzero : val (s1 d1 p1 d0) <> 0.
  Proof.
    intro Z. pose proof He1 as K. rewrite Z, Rabs_R0 in K.
    assert (Z' : val (s1 e1 p1 e0) = 0) by (destruct (Req_dec (val (s1 e1 p1 e0)) 0) as [|N]; [assumption | apply Rabs_pos_lt in N; lra]).
    pose proof det_near as D. rewrite Z, Z', Rmult_0_l, Rmult_0_r, Rminus_0_r, Rabs_R0 in D. destruct Hp as ((_ & B) & _). pose proof Hdet as Q. rewrite h42 in Q. pose proof h_pos.
    assert (Rabs (val p0) * (0 + 34 * h) <= 1 * (34 * h)) by (apply Rmult_le_compat; try apply Rabs_pos; lra). lra.
  Qed.

  Definition G : R := val (s1 e1 p1 e0) / val (s1 d1 p1 d0).
  Definition near2 (v : f64) (x : R) : Prop := fin v /\ Rabs (val v) <= 4 /\ Rabs (val v - x) <= 8 * h.
  Lemma second b g x y : near1 b x -> near1 g y -> near2 (s2 b g) (val b - val g * G).
  Proof.
    intros (Fb & Bb & _) (Fg & Bg & _). destruct Hp as (P0 & P1 & P2 & P3), Hd as (D0 & D1 & D2 & D3), He as (E0 & E1 & E2 & E3).
    destruct (first_d d1 p1 D1 P1) as (A1 & _ & _). destruct (first_e e1 p1 E1 P1) as (A2 & _ & _).
    destruct (step_ok 1 b g _ _ ltac:(lia) Fb Fg A2 Bb Bg He1 d1_nonzero) as (A & B & C). split; [exact A |]. split; [exact B |].
    change (bpow radix2 1) with 2 in C. eapply Rle_trans; [exact C | lra].
  Qed.

  Lemma pivots : bpow radix2 (-46) <= Rabs (val p0) /\ bpow radix2 (-46) <= Rabs (val (s1 d1 p1 d0)) /\ bpow radix2 (-46) <= Rabs (val (s2 (s1 e2 p2 e0) (s1 d2 p2 d0))).
  Proof.
    pose proof Hp as (P0 & P1 & P2 & P3). pose proof Hd as (D0 & D1 & D2 & D3). pose proof He as (E0 & E1 & E2 & E3).
    pose proof (first_d d1 p1 D1 P1) as (_ & L1 & N1). pose proof (second _ _ _ _ (first_e e2 p2 E2 P2) (first_d d2 p2 D2 P2)) as (_ & L2 & N2).
    pose proof det_near as D. pose proof Hdet as Q. rewrite h42 in Q. pose proof h_pos. destruct P0 as (_ & L0).
    set (A := val (s1 d1 p1 d0)) in *. set (T := val (s2 (s1 e2 p2 e0) (s1 d2 p2 d0))) in *.
    assert (E : A * val (s1 e2 p2 e0) - val (s1 d2 p2 d0) * val (s1 e1 p1 e0) = A * (val (s1 e2 p2 e0) - val (s1 d2 p2 d0) * G)) by (unfold G; fold A; field; exact d1_nonzero).
    rewrite E in D. rewrite Rabs_mult in D.
    assert (T1 : Rabs (val (s1 e2 p2 e0) - val (s1 d2 p2 d0) * G) <= Rabs T + 8 * h) by (apply abs_le_add; rewrite Rabs_minus_sym; exact N2).
    pose proof (Rabs_pos A). pose proof (Rabs_pos T). pose proof (Rabs_pos (val p0)).
    assert (K1 : Rabs A * Rabs (val (s1 e2 p2 e0) - val (s1 d2 p2 d0) * G) <= Rabs A * (Rabs T + 8 * h)) by (apply Rmult_le_compat_l; assumption).
    assert (K2 : Rabs A * (8 * h) <= 2 * (8 * h)) by (apply Rmult_le_compat_r; lra).
    assert (K3 : Rabs (val p0) * (Rabs A * Rabs (val (s1 e2 p2 e0) - val (s1 d2 p2 d0) * G) + 34 * h) <= Rabs (val p0) * (Rabs A * Rabs T + 50 * h)) by (apply Rmult_le_compat_l; lra).
    assert (K4 : Rabs (val p0) * (50 * h) <= 1 * (50 * h)) by (apply Rmult_le_compat_r; lra).
    assert (K : 4046 * h <= Rabs (val p0) * (Rabs A * Rabs T)) by lra.
    assert (B46 : bpow radix2 (-46) = 256 * h) by (unfold h; change 256 with (bpow radix2 8); rewrite <- bpow_plus; reflexivity). rewrite B46.
    assert (M1 : Rabs A * Rabs T <= 2 * 4) by (apply Rmult_le_compat; assumption).
    assert (M2 : Rabs (val p0) * Rabs T <= 1 * 4) by (apply Rmult_le_compat; assumption).
    assert (M3 : Rabs (val p0) * Rabs A <= 1 * 2) by (apply Rmult_le_compat; assumption).
    assert (M4 : Rabs (val p0) * (Rabs A * Rabs T) <= Rabs (val p0) * 8) by (apply Rmult_le_compat_l; lra).
    assert (M5 : Rabs (val p0) * (Rabs A * Rabs T) <= 4 * Rabs A) by (replace (Rabs (val p0) * (Rabs A * Rabs T)) with (Rabs (val p0) * Rabs T * Rabs A) by ring; apply Rmult_le_compat_r; lra).
    assert (M6 : Rabs (val p0) * (Rabs A * Rabs T) <= 2 * Rabs T) by (replace (Rabs (val p0) * (Rabs A * Rabs T)) with (Rabs (val p0) * Rabs A * Rabs T) by ring; apply Rmult_le_compat_r; lra).
    repeat split; lra.
  Qed.

  (** ** The computed solution *)
  Definition c3 : f64 := div (s2 (s1 e3 p3 e0) (s1 d3 p3 d0)) (s2 (s1 e2 p2 e0) (s1 d2 p2 d0)).
  Definition c2 : f64 := div (sub (s1 d3 p3 d0) (mul (s1 d2 p2 d0) c3)) (s1 d1 p1 d0).
  Definition c1 : f64 := div (sub (sub p3 (mul p1 c2)) (mul p2 c3)) p0.
  Definition N : R := 1 + Rabs (val c1) + Rabs (val c2) + Rabs (val c3).

  Lemma third_row : fin c3 /\ Rabs (val c3) <= bpow radix2 49 /\ Rabs (val (s2 (s1 e2 p2 e0) (s1 d2 p2 d0)) * val c3 - val (s2 (s1 e3 p3 e0) (s1 d3 p3 d0))) <= 8 * u.
  Proof.
    pose proof Hp as (P0 & P1 & P2 & P3). pose proof Hd as (D0 & D1 & D2 & D3). pose proof He as (E0 & E1 & E2 & E3).
    pose proof (second _ _ _ _ (first_e e2 p2 E2 P2) (first_d d2 p2 D2 P2)) as (_ & L2 & _). pose proof (second _ _ _ _ (first_e e3 p3 E3 P3) (first_d d3 p3 D3 P3)) as (Fb & Lb & _).
    destruct pivots as (_ & _ & K). pose proof (nonzero_of _ 46 K) as NZ. unfold c3. set (T := s2 (s1 e2 p2 e0) (s1 d2 p2 d0)) in *. set (b := s2 (s1 e3 p3 e0) (s1 d3 p3 d0)) in *.
    pose proof u_small. destruct (div_any b T Fb NZ) as (F & E).
    { apply (le_900 _ (2 + 46)); [lia |]. apply (div_bound _ _ 4); [exact Lb | exact K | cbn; lra]. }
    assert (E' : Rabs (val T * val (div b T) - val b) <= 8 * u) by (eapply Rle_trans; [exact E |]; nra).
    split; [exact F |]. split; [| exact E'].
    apply (quot_le (val T) _ 5 3 46); [| exact K | cbn; lra]. pose proof (abs_le_add _ _ _ E'). lra.
  Qed.

  Lemma second_row : fin c2 /\ Rabs (val c2) <= bpow radix2 100 /\ Rabs (val (s1 d1 p1 d0) * val c2 + val (s1 d2 p2 d0) * val c3 - val (s1 d3 p3 d0)) <= 10 * u * (1 + Rabs (val c3)).
  Proof.
    pose proof Hp as (P0 & P1 & P2 & P3). pose proof Hd as (D0 & D1 & D2 & D3).
    pose proof (first_d d1 p1 D1 P1) as (_ & L1 & _). pose proof (first_d d2 p2 D2 P2) as (F2' & L2 & _). pose proof (first_d d3 p3 D3 P3) as (F3' & L3 & _).
    destruct pivots as (_ & K & _). pose proof (nonzero_of _ 46 K) as NZ. destruct third_row as (Fx & Lx & _). unfold c2.
    set (A := s1 d1 p1 d0) in *. set (g := s1 d2 p2 d0) in *. set (b := s1 d3 p3 d0) in *. set (x := val c3) in *. pose proof u_small as U. pose proof (Rabs_pos x) as X0.
    assert (Pg : Rabs (val g * x) <= 2 * Rabs x) by (rewrite Rabs_mult; apply Rmult_le_compat_r; lra).
    assert (Px : Rabs x <= IZR (2 ^ 49)) by (rewrite <- bp by lia; exact Lx). change (IZR (2 ^ 49)) with 562949953421312 in Px.
    destruct (mul_any g c3 F2' Fx) as (Fm & Em). { fold x. apply (le_900 _ 52); [lia |]. eapply Rle_trans; [exact Pg |]. cbn. lra. } fold x in Em.
    assert (Em' : Rabs (val (mul g c3) - val g * x) <= u * (2 * Rabs x + 1)) by (eapply Rle_trans; [exact Em |]; apply Rmult_le_compat_l; lra). set (m := val (mul g c3)) in *.
    assert (Em2 : u * (2 * Rabs x + 1) <= / 1000000 * (2 * Rabs x + 1)) by (apply Rmult_le_compat_r; lra).
    assert (Lm : Rabs m <= 2 * Rabs x + u * (2 * Rabs x + 1)) by (pose proof (abs_le_add _ _ _ Em'); lra).
    assert (Lbm : Rabs (val b - m) <= 2 + 2 * Rabs x + u * (2 * Rabs x + 1)) by (eapply Rle_trans; [apply Rabs_triang |]; rewrite Rabs_Ropp; lra).
    destruct (sub_any b (mul g c3) F3' Fm) as (Fv & Ev). { fold m. apply (le_900 _ 53); [lia |]. eapply Rle_trans; [exact Lbm |]. cbn. lra. }
    fold m in Ev. set (v := sub b (mul g c3)) in *.
    assert (Ev' : Rabs (val v - (val b - m)) <= u * (3 * (1 + Rabs x) + / 1000)) by (eapply Rle_trans; [exact Ev |]; apply Rmult_le_compat_l; lra).
    assert (Ev2 : u * (3 * (1 + Rabs x) + / 1000) <= / 1000000 * (3 * (1 + Rabs x) + / 1000)) by (apply Rmult_le_compat_r; lra).
    assert (Lv : Rabs (val v) <= (2 + / 100) * (1 + Rabs x)) by (pose proof (abs_le_add _ _ _ Ev'); lra).
    destruct (div_any v A Fv NZ) as (F & E).
    { apply (le_900 _ (60 + 46)); [lia |]. apply (div_bound _ _ ((2 + / 100) * (1 + Rabs x))); [exact Lv | exact K | cbn; lra]. }
    assert (E' : Rabs (val A * val (div v A) - val v) <= u * ((2 + / 100) * (1 + Rabs x) + 2)) by (eapply Rle_trans; [exact E |]; apply Rmult_le_compat_l; lra).
    assert (E2' : u * ((2 + / 100) * (1 + Rabs x) + 2) <= / 1000000 * ((2 + / 100) * (1 + Rabs x) + 2)) by (apply Rmult_le_compat_r; lra).
    split; [exact F |]. split.
    - apply (quot_le (val A) _ (3 * (1 + Rabs x) + 2) 54 46); [| exact K | cbn; lra]. pose proof (abs_le_add _ _ _ E'). lra.
    - replace (val A * val (div v A) + val g * x - val b) with ((val A * val (div v A) - val v) + ((val v - (val b - m)) + - (m - val g * x))) by ring.
      eapply Rle_trans; [apply Rabs_triang |]. assert (Rabs ((val v - (val b - m)) + - (m - val g * x)) <= u * (3 * (1 + Rabs x) + / 1000) + u * (2 * Rabs x + 1)).
      { eapply Rle_trans; [apply Rabs_triang |]. rewrite Rabs_Ropp. lra. }
      assert (u * ((2 + / 100) * (1 + Rabs x) + 2) + (u * (3 * (1 + Rabs x) + / 1000) + u * (2 * Rabs x + 1)) <= u * (10 * (1 + Rabs x))) by (rewrite <- !Rmult_plus_distr_l; apply Rmult_le_compat_l; lra).
      lra.
  Qed.

  Lemma first_row : fin c1 /\ Rabs (val p0 * val c1 + val p1 * val c2 + val p2 * val c3 - val p3) <= 10 * u * (1 + Rabs (val c2) + Rabs (val c3)).
  Proof.
    pose proof Hp as ((F0 & L0) & (F1' & L1) & (F2' & L2) & (F3' & L3)).
    destruct pivots as (K & _ & _). pose proof (nonzero_of _ 46 K) as NZ. destruct third_row as (Fx & Lx & _). destruct second_row as (Fy & Ly & _). unfold c1.
    set (x := val c3) in *. set (y := val c2) in *. pose proof u_small as U. pose proof (Rabs_pos x) as X0. pose proof (Rabs_pos y) as Y0.
    assert (Px : Rabs x <= bpow radix2 100) by (eapply Rle_trans; [exact Lx | apply bpow_le; lia]). assert (Py : Rabs y <= bpow radix2 100) by exact Ly.
    assert (B1 : 1 <= bpow radix2 100) by (change 1 with (bpow radix2 0); apply bpow_le; lia).
    assert (B2 : 8 * bpow radix2 100 <= bpow radix2 103) by (replace 103%Z with (3 + 100)%Z by lia; rewrite bpow_plus; change (bpow radix2 3) with 8; lra).
    assert (Pg : Rabs (val p1 * y) <= Rabs y) by (rewrite Rabs_mult; nra). assert (Pk : Rabs (val p2 * x) <= Rabs x) by (rewrite Rabs_mult; nra).
    destruct (mul_any p1 c2 F1' Fy) as (Fm & Em). { fold y. apply (le_900 _ 103); [lia |]. lra. } fold y in Em.
    destruct (mul_any p2 c3 F2' Fx) as (Fn & En). { fold x. apply (le_900 _ 103); [lia |]. lra. } fold x in En.
    set (m := val (mul p1 c2)) in *. set (n := val (mul p2 c3)) in *.
    assert (Em' : Rabs (m - val p1 * y) <= u * (Rabs y + 1)) by (eapply Rle_trans; [exact Em |]; apply Rmult_le_compat_l; lra).
    assert (En' : Rabs (n - val p2 * x) <= u * (Rabs x + 1)) by (eapply Rle_trans; [exact En |]; apply Rmult_le_compat_l; lra).
    assert (Em2 : u * (Rabs y + 1) <= / 1000000 * (Rabs y + 1)) by (apply Rmult_le_compat_r; lra). assert (En2 : u * (Rabs x + 1) <= / 1000000 * (Rabs x + 1)) by (apply Rmult_le_compat_r; lra).
    assert (Lm : Rabs m <= Rabs y + / 1000000 * (Rabs y + 1)) by (pose proof (abs_le_add _ _ _ Em'); lra). assert (Ln : Rabs n <= Rabs x + / 1000000 * (Rabs x + 1)) by (pose proof (abs_le_add _ _ _ En'); lra).
    assert (Lbm : Rabs (val p3 - m) <= 1 + Rabs y + / 1000000 * (Rabs y + 1)) by (eapply Rle_trans; [apply Rabs_triang |]; rewrite Rabs_Ropp; lra).
    destruct (sub_any p3 (mul p1 c2) F3' Fm) as (Fv & Ev). { fold m. apply (le_900 _ 103); [lia |]. lra. } fold m in Ev. set (v := sub p3 (mul p1 c2)) in *.
    assert (Ev' : Rabs (val v - (val p3 - m)) <= u * (2 + Rabs y + / 1000 * (Rabs y + 1))) by (eapply Rle_trans; [exact Ev |]; apply Rmult_le_compat_l; lra).
    assert (Ev2 : u * (2 + Rabs y + / 1000 * (Rabs y + 1)) <= / 1000000 * (2 + Rabs y + / 1000 * (Rabs y + 1))) by (apply Rmult_le_compat_r; lra).
    assert (Lv : Rabs (val v) <= 1 + Rabs y + / 1000 * (Rabs y + 1)) by (pose proof (abs_le_add _ _ _ Ev'); lra).
    assert (Lvn : Rabs (val v - n) <= (1 + Rabs y + Rabs x) * (1 + / 100)) by (eapply Rle_trans; [apply Rabs_triang |]; rewrite Rabs_Ropp; lra).
    destruct (sub_any v (mul p2 c3) Fv Fn) as (Fw & Ew). { fold n. apply (le_900 _ 103); [lia |]. lra. } fold n in Ew. set (w := sub v (mul p2 c3)) in *.
    assert (Ew' : Rabs (val w - (val v - n)) <= u * ((1 + Rabs y + Rabs x) * (1 + / 100) + 1)) by (eapply Rle_trans; [exact Ew |]; apply Rmult_le_compat_l; lra).
    assert (Ew2 : u * ((1 + Rabs y + Rabs x) * (1 + / 100) + 1) <= / 1000000 * ((1 + Rabs y + Rabs x) * (1 + / 100) + 1)) by (apply Rmult_le_compat_r; lra).
    assert (Lw : Rabs (val w) <= (1 + Rabs y + Rabs x) * (1 + / 50)) by (pose proof (abs_le_add _ _ _ Ew'); lra).
    destruct (div_any w p0 Fw NZ) as (F & E).
    { apply (le_900 _ (103 + 46)); [lia |]. apply (div_bound _ _ ((1 + Rabs y + Rabs x) * (1 + / 50))); [exact Lw | exact K | lra]. }
    assert (E' : Rabs (val p0 * val (div w p0) - val w) <= u * ((1 + Rabs y + Rabs x) * (1 + / 50) + 1)) by (eapply Rle_trans; [exact E |]; apply Rmult_le_compat_l; lra).
    split; [exact F |].
    replace (val p0 * val (div w p0) + val p1 * y + val p2 * x - val p3)
      with ((val p0 * val (div w p0) - val w) + ((val w - (val v - n)) + ((val v - (val p3 - m)) + (- (m - val p1 * y) + - (n - val p2 * x))))) by ring.
    eapply Rle_trans; [apply Rabs_triang |]. assert (X1 : Rabs (- (m - val p1 * y) + - (n - val p2 * x)) <= u * (Rabs y + 1) + u * (Rabs x + 1)).
    { eapply Rle_trans; [apply Rabs_triang |]. rewrite !Rabs_Ropp. lra. }
    assert (X2 : Rabs ((val v - (val p3 - m)) + (- (m - val p1 * y) + - (n - val p2 * x))) <= u * (2 + Rabs y + / 1000 * (Rabs y + 1)) + (u * (Rabs y + 1) + u * (Rabs x + 1))).
    { eapply Rle_trans; [apply Rabs_triang |]. lra. }
    assert (X3 : Rabs ((val w - (val v - n)) + ((val v - (val p3 - m)) + (- (m - val p1 * y) + - (n - val p2 * x)))) <= u * ((1 + Rabs y + Rabs x) * (1 + / 100) + 1) + (u * (2 + Rabs y + / 1000 * (Rabs y + 1)) + (u * (Rabs y + 1) + u * (Rabs x + 1)))).
    { eapply Rle_trans; [apply Rabs_triang |]. lra. }
    assert (u * ((1 + Rabs y + Rabs x) * (1 + / 50) + 1) + (u * ((1 + Rabs y + Rabs x) * (1 + / 100) + 1) + (u * (2 + Rabs y + / 1000 * (Rabs y + 1)) + (u * (Rabs y + 1) + u * (Rabs x + 1)))) <= u * (10 * (1 + Rabs y + Rabs x)))
      by (rewrite <- !Rmult_plus_distr_l; apply Rmult_le_compat_l; lra).
    lra.
  Qed.

  Lemma near1_h v x : near1 v x -> Rabs (val v - x) <= 2 * u.
  Proof. intros (_ & _ & H). rewrite u_h. lra. Qed.
  Lemma near2_h v x : near2 v x -> Rabs (val v - x) <= 4 * u.
  Proof. intros (_ & _ & H). rewrite u_h. lra. Qed.

  (** A change of the coefficients of an equation. *)
  Lemma change2 a b c a' b' c' x y e : Rabs (a - a') <= e -> Rabs (b - b') <= e -> Rabs (c - c') <= e -> 0 <= e ->
    Rabs ((a' * x + b' * y - c') - (a * x + b * y - c)) <= e * (1 + Rabs x + Rabs y).
  Proof.
    intros A B C E. replace ((a' * x + b' * y - c') - (a * x + b * y - c)) with (- (a - a') * x + (- (b - b') * y + (c - c'))) by ring.
    eapply Rle_trans; [apply Rabs_triang |]. assert (Rabs (- (b - b') * y + (c - c')) <= e * Rabs y + e).
    { eapply Rle_trans; [apply Rabs_triang |]. rewrite Rabs_mult, Rabs_Ropp. assert (Rabs (b - b') * Rabs y <= e * Rabs y) by (apply Rmult_le_compat_r; [apply Rabs_pos | exact B]). lra. }
    rewrite Rabs_mult, Rabs_Ropp. assert (Rabs (a - a') * Rabs x <= e * Rabs x) by (apply Rmult_le_compat_r; [apply Rabs_pos | exact A]). lra.
  Qed.

  Lemma F1_le : Rabs F1 <= 1.
  Proof. apply abs_div_le; [exact Hd0 | exact p0_nonzero]. Qed.
  Lemma F2_le : Rabs F2 <= 1.
  Proof. apply abs_div_le; [exact He0 | exact p0_nonzero]. Qed.
  Lemma G_le : Rabs G <= 1.
  Proof. apply abs_div_le; [exact He1 | exact d1_nonzero]. Qed.

  Lemma times_le f x e : Rabs f <= 1 -> Rabs x <= e -> Rabs (f * x) <= e.
  Proof. intros A B. rewrite Rabs_mult. pose proof (Rabs_pos x). pose proof (Rabs_pos f). nra. Qed.

  Definition residual (a b c d : f64) : R := val a * val c1 + val b * val c2 + val c * val c3 - val d.

  Theorem residuals : Rabs (residual p0 p1 p2 p3) <= 34 * u * N /\ Rabs (residual d0 d1 d2 d3) <= 34 * u * N /\ Rabs (residual e0 e1 e2 e3) <= 34 * u * N.
  Proof.
    pose proof Hp as (P0 & P1 & P2 & P3). pose proof Hd as (D0 & D1 & D2 & D3). pose proof He as (E0 & E1 & E2 & E3).
    destruct third_row as (_ & _ & R3). destruct second_row as (_ & _ & R2). destruct first_row as (_ & R1). pose proof u_small as (U & _).
    set (x := val c1) in *. set (y := val c2) in *. set (z := val c3) in *. unfold residual. fold x y z.
    pose proof (Rabs_pos x) as X. pose proof (Rabs_pos y) as Y. pose proof (Rabs_pos z) as Z.
    assert (R1' : Rabs (val p0 * x + val p1 * y + val p2 * z - val p3) <= 10 * u * N) by (eapply Rle_trans; [exact R1 |]; apply Rmult_le_compat_l; [lra | unfold N; fold x y z; lra]).
    assert (R2' : Rabs (val (s1 d1 p1 d0) * y + val (s1 d2 p2 d0) * z - val (s1 d3 p3 d0)) <= 10 * u * N) by (eapply Rle_trans; [exact R2 |]; apply Rmult_le_compat_l; [lra | unfold N; fold x y z; lra]).
    assert (N1 : 1 + Rabs y + Rabs z <= N) by (unfold N; fold x y z; lra). assert (N0 : 1 <= N) by lra.
    assert (UN : 0 <= u * N) by (apply Rmult_le_pos; lra).
    assert (Cd : Rabs (((val d1 - val p1 * F1) * y + (val d2 - val p2 * F1) * z - (val d3 - val p3 * F1)) - (val (s1 d1 p1 d0) * y + val (s1 d2 p2 d0) * z - val (s1 d3 p3 d0))) <= 2 * u * N).
    { eapply Rle_trans; [apply (change2 _ _ _ _ _ _ y z (2 * u)); try (apply near1_h, first_d; assumption); lra |]. apply Rmult_le_compat_l; lra. }
    assert (Ce : Rabs (((val e1 - val p1 * F2) * y + (val e2 - val p2 * F2) * z - (val e3 - val p3 * F2)) - (val (s1 e1 p1 e0) * y + val (s1 e2 p2 e0) * z - val (s1 e3 p3 e0))) <= 2 * u * N).
    { eapply Rle_trans; [apply (change2 _ _ _ _ _ _ y z (2 * u)); try (apply near1_h, first_e; assumption); lra |]. apply Rmult_le_compat_l; lra. }
    assert (Ct : Rabs ((val (s1 e2 p2 e0) - val (s1 d2 p2 d0) * G) * z - (val (s1 e3 p3 e0) - val (s1 d3 p3 d0) * G) - (val (s2 (s1 e2 p2 e0) (s1 d2 p2 d0)) * z - val (s2 (s1 e3 p3 e0) (s1 d3 p3 d0)))) <= 4 * u * N).
    { pose proof (near2_h _ _ (second _ _ _ _ (first_e e2 p2 E2 P2) (first_d d2 p2 D2 P2))) as A. pose proof (near2_h _ _ (second _ _ _ _ (first_e e3 p3 E3 P3) (first_d d3 p3 D3 P3))) as B.
      pose proof (change2 0 _ _ 0 _ _ 0 z (4 * u) ltac:(rewrite Rminus_0_r, Rabs_R0; lra) A B ltac:(lra)) as C. rewrite Rabs_R0, !Rmult_0_l, !Rplus_0_l, Rplus_0_r in C.
      eapply Rle_trans; [exact C |]. apply Rmult_le_compat_l; lra. }
    assert (UN1 : u <= u * N) by nra.
    assert (R3' : Rabs (val (s2 (s1 e2 p2 e0) (s1 d2 p2 d0)) * z - val (s2 (s1 e3 p3 e0) (s1 d3 p3 d0))) <= 8 * u * N) by (eapply Rle_trans; [exact R3 |]; lra).
    assert (T1 := times_le _ _ _ F1_le R1'). assert (T2 := times_le _ _ _ F2_le R1'). assert (T3 := times_le _ _ _ G_le R2').
    assert (K1 : F1 * val p0 = val d0) by (unfold F1; field; exact p0_nonzero). assert (K2 : F2 * val p0 = val e0) by (unfold F2; field; exact p0_nonzero).
    assert (K3 : G * val (s1 d1 p1 d0) = val (s1 e1 p1 e0)) by (unfold G; field; exact d1_nonzero).
    split; [lra |]. split.
    - rewrite <- K1. set (A := F1 * (val p0 * x + val p1 * y + val p2 * z - val p3)) in *. set (B := val (s1 d1 p1 d0) * y + val (s1 d2 p2 d0) * z - val (s1 d3 p3 d0)) in *.
      set (C := (val d1 - val p1 * F1) * y + (val d2 - val p2 * F1) * z - (val d3 - val p3 * F1)) in *.
      replace (F1 * val p0 * x + val d1 * y + val d2 * z - val d3) with (A + (B + (C - B))) by (unfold A, C; ring).
      eapply Rle_trans; [apply Rabs_triang |]. assert (Rabs (B + (C - B)) <= 10 * u * N + 2 * u * N) by (eapply Rle_trans; [apply Rabs_triang |]; lra). lra.
    - rewrite <- K2. set (A := F2 * (val p0 * x + val p1 * y + val p2 * z - val p3)) in *. set (B := val (s1 d1 p1 d0) * y + val (s1 d2 p2 d0) * z - val (s1 d3 p3 d0)) in *.
      set (C := (val e1 - val p1 * F2) * y + (val e2 - val p2 * F2) * z - (val e3 - val p3 * F2)) in *.
      set (H := val (s1 e1 p1 e0) * y + val (s1 e2 p2 e0) * z - val (s1 e3 p3 e0)) in *.
      set (I := (val (s1 e2 p2 e0) - val (s1 d2 p2 d0) * G) * z - (val (s1 e3 p3 e0) - val (s1 d3 p3 d0) * G)) in *.
      set (J := val (s2 (s1 e2 p2 e0) (s1 d2 p2 d0)) * z - val (s2 (s1 e3 p3 e0) (s1 d3 p3 d0))) in *.
      assert (HI : H = G * B + I) by (unfold H, B, I; rewrite <- K3; ring).
      replace (F2 * val p0 * x + val e1 * y + val e2 * z - val e3) with (A + ((C - H) + (G * B + ((I - J) + J)))) by (replace (G * B + (I - J + J)) with H by (rewrite HI; ring); unfold A, C; ring).
      eapply Rle_trans; [apply Rabs_triang |]. assert (Y1 : Rabs ((I - J) + J) <= 12 * u * N) by (eapply Rle_trans; [apply Rabs_triang |]; lra).
      assert (Y2 : Rabs (G * B + ((I - J) + J)) <= 22 * u * N) by (eapply Rle_trans; [apply Rabs_triang |]; lra).
      assert (Y3 : Rabs ((C - H) + (G * B + ((I - J) + J))) <= 24 * u * N) by (eapply Rle_trans; [apply Rabs_triang |]; lra). lra.
  Qed.

  (** ** Distance from the exact solution *)
  Lemma minor a b c d : Rabs a <= 1 -> Rabs b <= 1 -> Rabs c <= 1 -> Rabs d <= 1 -> Rabs (a * b - c * d) <= 2.
  Proof. intros. eapply Rle_trans; [apply Rabs_triang |]. rewrite Rabs_Ropp, !Rabs_mult. pose proof (Rabs_pos a). pose proof (Rabs_pos b). pose proof (Rabs_pos c). pose proof (Rabs_pos d). nra. Qed.
  Lemma combine a b c x y z e : Rabs a <= e -> Rabs b <= e -> Rabs c <= e -> Rabs x <= 2 -> Rabs y <= 2 -> Rabs z <= 2 -> Rabs (a * x - b * y + c * z) <= 6 * e.
  Proof.
    intros. pose proof (Rabs_pos a). assert (forall s t, Rabs s <= e -> Rabs t <= 2 -> Rabs (s * t) <= 2 * e) as M.
    { intros s t S T. rewrite Rabs_mult, Rmult_comm. apply Rmult_le_compat; auto using Rabs_pos. }
    pose proof (M _ _ H H2). pose proof (M _ _ H0 H3). pose proof (M _ _ H1 H4).
    eapply Rle_trans; [apply Rabs_triang |]. assert (Rabs (a * x - b * y) <= 4 * e) by (eapply Rle_trans; [apply Rabs_triang |]; rewrite Rabs_Ropp; lra). lra.
  Qed.

  Section Solution.
    Variables x1 x2 x3 : R.
    Hypothesis S1 : val p0 * x1 + val p1 * x2 + val p2 * x3 = val p3.
    Hypothesis S2 : val d0 * x1 + val d1 * x2 + val d2 * x3 = val d3.
    Hypothesis S3 : val e0 * x1 + val e1 * x2 + val e2 * x3 = val e3.

    Lemma cramers : forall r1 r2 r3 y1 y2 y3, val p0 * y1 + val p1 * y2 + val p2 * y3 = r1 -> val d0 * y1 + val d1 * y2 + val d2 * y3 = r2 -> val e0 * y1 + val e1 * y2 + val e2 * y3 = r3 ->
      forall e, Rabs r1 <= e -> Rabs r2 <= e -> Rabs r3 <= e -> Rabs (det3 * y1) <= 6 * e /\ Rabs (det3 * y2) <= 6 * e /\ Rabs (det3 * y3) <= 6 * e.
    Proof.
      pose proof Hp as ((_ & P0) & (_ & P1) & (_ & P2) & _). pose proof Hd as ((_ & D0) & (_ & D1) & (_ & D2) & _). pose proof He as ((_ & E0) & (_ & E1) & (_ & E2) & _).
      intros r1 r2 r3 y1 y2 y3 A B C e L1 L2 L3. unfold det3. subst r1 r2 r3. repeat split.
      - match goal with |- Rabs ?l <= _ => replace l with ((val p0 * y1 + val p1 * y2 + val p2 * y3) * (val d1 * val e2 - val d2 * val e1) - (val d0 * y1 + val d1 * y2 + val d2 * y3) * (val p1 * val e2 - val p2 * val e1)
          + (val e0 * y1 + val e1 * y2 + val e2 * y3) * (val p1 * val d2 - val p2 * val d1)) by ring end. apply combine; auto using minor.
      - match goal with |- Rabs ?l <= _ => replace l with (- ((val p0 * y1 + val p1 * y2 + val p2 * y3) * (val d0 * val e2 - val d2 * val e0) - (val d0 * y1 + val d1 * y2 + val d2 * y3) * (val p0 * val e2 - val p2 * val e0)
          + (val e0 * y1 + val e1 * y2 + val e2 * y3) * (val p0 * val d2 - val p2 * val d0))) by ring end. rewrite Rabs_Ropp. apply combine; auto using minor.
      - match goal with |- Rabs ?l <= _ => replace l with ((val p0 * y1 + val p1 * y2 + val p2 * y3) * (val d0 * val e1 - val d1 * val e0) - (val d0 * y1 + val d1 * y2 + val d2 * y3) * (val p0 * val e1 - val p1 * val e0)
          + (val e0 * y1 + val e1 * y2 + val e2 * y3) * (val p0 * val d1 - val p1 * val d0)) by ring end. apply combine; auto using minor.
    Qed.

    Theorem close : Rabs det3 * N <= 40 /\ Rabs det3 * Rabs (val c1 - x1) <= 256 * u * N /\ Rabs det3 * Rabs (val c2 - x2) <= 256 * u * N /\ Rabs det3 * Rabs (val c3 - x3) <= 256 * u * N.
    Proof.
      destruct residuals as (R1 & R2 & R3). unfold residual in R1, R2, R3. pose proof u_small as (U & _).
      assert (N0 : 1 <= N) by (unfold N; pose proof (Rabs_pos (val c1)); pose proof (Rabs_pos (val c2)); pose proof (Rabs_pos (val c3)); lra).
      destruct (cramers (val p0 * val c1 + val p1 * val c2 + val p2 * val c3 - val p3) (val d0 * val c1 + val d1 * val c2 + val d2 * val c3 - val d3) (val e0 * val c1 + val e1 * val c2 + val e2 * val c3 - val e3)
        (val c1 - x1) (val c2 - x2) (val c3 - x3) ltac:(rewrite <- S1; ring) ltac:(rewrite <- S2; ring) ltac:(rewrite <- S3; ring) _ R1 R2 R3) as (A1 & A2 & A3).
      pose proof Hp as ((_ & P0) & (_ & P1) & (_ & P2) & (_ & P3)). pose proof Hd as ((_ & D0) & (_ & D1) & (_ & D2) & (_ & D3)). pose proof He as ((_ & E0) & (_ & E1) & (_ & E2) & (_ & E3)).
      destruct (cramers _ _ _ x1 x2 x3 S1 S2 S3 1 P3 D3 E3) as (B1 & B2 & B3).
      assert (D : Rabs det3 <= 6 * 1).
      { unfold det3. pose proof (combine (val p0) (val p1) (val p2) (val d1 * val e2 - val d2 * val e1) (val d0 * val e2 - val d2 * val e0) (val d0 * val e1 - val d1 * val e0) 1) as C. apply C; auto using minor. }
      rewrite Rabs_mult in A1, A2, A3, B1, B2, B3. pose proof (Rabs_pos det3) as D'.
      assert (Q : 204 * u * N <= 256 * u * N) by (apply Rmult_le_compat_r; nra).
      assert (T : forall c x, Rabs c <= Rabs x + Rabs (c - x)) by (intros c x; apply abs_le_add; lra).
      pose proof (Rmult_le_compat_l _ _ _ D' (T (val c1) x1)). pose proof (Rmult_le_compat_l _ _ _ D' (T (val c2) x2)). pose proof (Rmult_le_compat_l _ _ _ D' (T (val c3) x3)).
      split; [| repeat split; lra].
      assert (M : Rabs det3 * N <= 24 + 768 * u * N) by (unfold N at 1; lra).
      assert (D2' : 2048 * u <= Rabs det3) by (pose proof Hdet as Q'; rewrite h42 in Q'; rewrite u_h; lra).
      assert (768 * u * N <= / 2 * Rabs det3 * N) by (apply Rmult_le_compat_r; lra). nra.
    Qed.
  End Solution.
End Three.
