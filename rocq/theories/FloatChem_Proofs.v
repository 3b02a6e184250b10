(** Proofs about the time integration of the chemistry with rounding. *)
From Coq Require Import ZArith Reals Lra Lia Psatz Bool.
From Flocq Require Import Core IEEE754.BinarySingleNaN Relative.
From Verif Require Import Float_Model Float_Spec Float_Proofs FloatChem_Model FloatChem_Spec.
Local Open Scope R_scope.

Lemma lt_true x y : fin x -> fin y -> lt x y = true -> val x < val y.
Proof. intros Fx Fy E. rewrite lt_val in E by assumption. destruct (Rlt_bool_spec (val x) (val y)); [assumption | discriminate]. Qed.
Lemma lt_false x y : fin x -> fin y -> lt x y = false -> val y <= val x.
Proof. intros Fx Fy E. rewrite lt_val in E by assumption. destruct (Rlt_bool_spec (val x) (val y)); [discriminate | assumption]. Qed.

Lemma eps_fin : fin fraction_epsilon. Proof. vm_cast_no_check (eq_refl true). Qed.
Lemma largest_fin : fin largest_fraction. Proof. vm_cast_no_check (eq_refl true). Qed.
Lemma eps_pos : 0 < val fraction_epsilon.
Proof. apply (lt_true zero); [reflexivity | exact eps_fin | vm_cast_no_check (eq_refl true)]. Qed.
Lemma eps_lt : val fraction_epsilon < val largest_fraction.
Proof. apply lt_true; [exact eps_fin | exact largest_fin | vm_cast_no_check (eq_refl true)]. Qed.
Lemma inv_fin : fin inv_epsilon. Proof. vm_cast_no_check (eq_refl true). Qed.
Lemma inv_gt : 1 < val inv_epsilon.
Proof. rewrite <- val_one. apply lt_true; [reflexivity | exact inv_fin | vm_cast_no_check (eq_refl true)]. Qed.
Lemma largest_lt : val largest_fraction < 1.
Proof. rewrite <- val_one. apply lt_true; [exact largest_fin | reflexivity | vm_cast_no_check (eq_refl true)]. Qed.

(** A sum of finite numbers that is not negative. *)
Lemma add_valid x y : fin x -> fin y -> 0 <= val x -> 0 <= val x + val y -> not_negative (add x y).
Proof.
  intros Fx Fy Px H. pose proof (Bplus_correct 53 1024 gt0 ltmax mode_NE x y Fx Fy) as C. rewrite fexp_eq in C. cbn [round_mode] in C.
  change (round radix2 (FLT_exp (-1074) 53) ZnearestE (B2R x + B2R y)) with (rnd (val x + val y)) in C.
  change (@Bplus 53 1024 gt0 ltmax mode_NE x y) with (add x y) in C.
  destruct (Rlt_bool_spec (Rabs (rnd (val x + val y))) (bpow radix2 1024)) as [L|L].
  - destruct C as (V & F & _). assert (P : 0 <= value (add x y)).
    { change (value (add x y)) with (B2R (add x y)). rewrite V, <- rnd_0. apply rnd_le. exact H. }
    destruct (add x y); try discriminate; exact P.
  - destruct C as [S E]. assert (Sx : Bsign x = false).
    { destruct (Bsign x) eqn:G; [|reflexivity]. exfalso.
      assert (Nx : val x <= 0). { unfold val. destruct x as [s|s| |s m e B]; cbn in *; try lra. subst s. apply F2R_le_0. cbn. lia. }
      assert (Ny : val y <= 0). { unfold val. destruct y as [s|s| |s m e B]; cbn in *; try lra. subst s. apply F2R_le_0. cbn. lia. }
      assert (Z0 : val x + val y = 0) by lra. rewrite Z0, rnd_0, Rabs_R0 in L. pose proof (bpow_gt_0 radix2 1024). lra. }
    rewrite Sx in S. cbn in S. destruct (add x y); cbn in S; try discriminate. injection S as ->. reflexivity.
Qed.

(** The quotient of finite numbers: the rounded one or an infinite one. *)
Lemma div_cases x y : fin x -> val y <> 0 ->
  (fin (div x y) /\ val (div x y) = rnd (val x / val y)) \/ exists s, div x y = B754_infinity s.
Proof.
  intros Fx Hy. pose proof (Bdiv_correct 53 1024 gt0 ltmax mode_NE x y Hy) as C. rewrite fexp_eq in C. cbn [round_mode] in C.
  change (round radix2 (FLT_exp (-1074) 53) ZnearestE (B2R x / B2R y)) with (rnd (val x / val y)) in C.
  change (@Bdiv 53 1024 gt0 ltmax mode_NE x y) with (div x y) in C.
  destruct (Rlt_bool_spec (Rabs (rnd (val x / val y))) (bpow radix2 1024)) as [L|L].
  - destruct C as (V & F & _). left. split; [unfold fin; rewrite F; exact Fx | exact V].
  - right. cbn in C. destruct (div x y) as [s|s| |s m e B]; cbn in C; try discriminate. exists s. reflexivity.
Qed.

Lemma min_nan : min64 (abs B754_nan) inv_epsilon = inv_epsilon.
Proof. reflexivity. Qed.
Lemma min_inf s : min64 (abs (B754_infinity s)) inv_epsilon = inv_epsilon.
Proof.
  change (abs (B754_infinity s)) with (B754_infinity false : f64). generalize inv_epsilon, inv_fin. intros y F.
  destruct y as [b|b| |b m e B]; try discriminate F; [destruct b; reflexivity | destruct b; reflexivity].
Qed.
Lemma lt_infinity y : fin y -> lt y (B754_infinity false) = true.
Proof. intro F. destruct y as [b|b| |b m e B]; try discriminate F; destruct b; reflexivity. Qed.
Lemma safety_lt f : a_safety f -> lt f inv_epsilon = true.
Proof. intros [F V]. rewrite lt_val by (exact F || exact inv_fin). apply Rlt_bool_true. pose proof inv_gt. change (value f) with (val f) in V. lra. Qed.

(** An accepted change of a finite positive value is smaller than the value. *)
Lemma accepted_finite v c f h r : a_safety f -> fin v -> 0 < val v -> update64 v c f h = Some r ->
  fin c /\ Rabs (rnd (val c / val v)) <= val f /\ fst r = add v c.
Proof.
  intros S Fv Pv E. unfold update64 in E. pose proof (safety_lt f S) as SL.
  assert (K : forall q, div c v = q -> (q = B754_nan \/ exists s, q = B754_infinity s) -> False).
  { intros q Q [->|[s ->]]; rewrite Q in E; [rewrite min_nan in E | rewrite min_inf in E]; rewrite SL in E; discriminate. }
  assert (Fc : fin c).
  { destruct c as [s|s| |s m e B]; try reflexivity; exfalso.
    - destruct v as [s'|s'| |s' m' e' B']; try discriminate Fv.
      + apply (K _ eq_refl). cbn. eauto.
      + apply (K _ eq_refl). cbn. eauto.
    - apply (K B754_nan); [destruct v; reflexivity | now left]. }
  split; [exact Fc|]. destruct (div_cases c v Fc) as [[Fq Vq]|[s Q]]; [lra | | exfalso; eapply K; eauto].
  destruct (lt f (min64 (abs (div c v)) inv_epsilon)) eqn:L; [discriminate|]. injection E as <-. split; [|reflexivity].
  assert (A : val (abs (div c v)) = Rabs (rnd (val c / val v))) by (unfold val, abs; rewrite B2R_Babs; fold (val (div c v)); now rewrite Vq).
  pose proof (abs_fin _ Fq) as Fa. rewrite <- A. destruct S as [Ff Vf]. change (value f) with (val f) in Vf. pose proof inv_gt as IG.
  assert (M : min64 (abs (div c v)) inv_epsilon = if lt inv_epsilon (abs (div c v)) then inv_epsilon else abs (div c v)).
  { generalize (abs (div c v)), Fa. intros a Ha. destruct a; try discriminate Ha; reflexivity. }
  rewrite M in L. destruct (lt inv_epsilon (abs (div c v))) eqn:L2.
  - apply (lt_false f inv_epsilon Ff inv_fin) in L. lra.
  - apply lt_false in L; assumption.
Qed.

Lemma small_quotient c v : 0 < v -> Rabs (rnd (c / v)) < 1 -> Rabs c < v.
Proof.
  intros P H. destruct (Rlt_or_le (Rabs c) v) as [L|L]; [exact L|]. exfalso.
  assert (F1 : rnd 1 = 1) by (apply rnd_fmt; change 1 with (bpow radix2 0); apply fmt_bpow; lia).
  apply Rabs_def2 in H. unfold Rabs in L. destruct (Rcase_abs c) as [N|N].
  - assert (Q : c / v <= Ropp 1). { apply (Rmult_le_reg_r v); [exact P|]. unfold Rdiv. rewrite Rmult_assoc, Rinv_l by lra. lra. }
    apply rnd_le in Q. rewrite rnd_opp, F1 in Q. lra.
  - assert (Q : 1 <= c / v). { apply (Rmult_le_reg_r v); [exact P|]. unfold Rdiv. rewrite Rmult_assoc, Rinv_l by lra. lra. }
    apply rnd_le in Q. rewrite F1 in Q. lra.
Qed.

Lemma zero_val_div c v : fin v -> val v = 0 -> div c v = B754_nan \/ exists s, div c v = B754_infinity s.
Proof.
  intros F V. destruct v as [s|s| |s m e B]; try discriminate F.
  - destruct c; cbn; eauto.
  - exfalso. unfold val in V. cbn in V. apply eq_0_F2R in V. destruct s; discriminate.
Qed.

Lemma update_valid v c f h r : a_safety f -> not_negative v -> update64 v c f h = Some r -> not_negative (fst r).
Proof.
  intros S N E. destruct (is_finite v) eqn:Fv.
  - assert (P : 0 <= val v) by (destruct v; try discriminate; exact N). destruct (Req_dec (val v) 0) as [Z|Z].
    + exfalso. unfold update64 in E. destruct (zero_val_div c v Fv Z) as [Q|[s Q]]; rewrite Q in E;
        [rewrite min_nan in E | rewrite min_inf in E]; rewrite (safety_lt f S) in E; discriminate.
    + destruct (accepted_finite v c f h r S Fv ltac:(lra) E) as (Fc & A & ->).
      destruct S as [_ Vf]. change (value f) with (val f) in Vf.
      pose proof (small_quotient (val c) (val v) ltac:(lra) ltac:(lra)) as B. apply Rabs_def2 in B. apply add_valid; try assumption. lra.
  - destruct v as [s|s| |s m e B]; try discriminate; [|contradiction]. cbn in N. subst s.
    unfold update64 in E. destruct c as [s|s| |s m e B].
    + destruct (lt f _); [discriminate|]. injection E as <-. reflexivity.
    + assert (Q : div (B754_infinity s) (B754_infinity false) = B754_nan) by reflexivity.
      rewrite Q, min_nan, (safety_lt f S) in E. discriminate.
    + assert (Q : div B754_nan (B754_infinity false) = B754_nan) by reflexivity.
      rewrite Q, min_nan, (safety_lt f S) in E. discriminate.
    + destruct (lt f _); [discriminate|]. injection E as <-. reflexivity.
Qed.

Lemma clamp64_valid x lo : fin lo -> val lo <= val largest_fraction -> x <> B754_nan ->
  exists y, clamp64 x lo largest_fraction = Some y /\ fin y /\ val lo <= val y <= val largest_fraction.
Proof.
  intros F L N. unfold clamp64. unfold cmp. rewrite (Bcompare_correct _ _ _ _ F largest_fin). fold (val lo). fold (val largest_fraction).
  assert (G : exists y, Some (if lt x lo then lo else if lt largest_fraction x then largest_fraction else x) = Some y /\ fin y /\ val lo <= val y <= val largest_fraction).
  { eexists. split; [reflexivity|]. pose proof largest_fin as FL. destruct (lt x lo) eqn:E1; [split; [exact F | lra]|].
    destruct (lt largest_fraction x) eqn:E2; [split; [exact FL | lra]|].
    assert (Fx : fin x).
    { destruct x as [s|s| |s m e B]; try reflexivity; [|congruence]. exfalso. destruct s.
      - destruct lo; try discriminate F; discriminate E1.
      - rewrite (lt_infinity _ FL) in E2. discriminate E2. }
    split; [exact Fx|]. apply lt_false in E1; try assumption. apply lt_false in E2; try assumption. lra. }
  destruct (Rcompare_spec (val lo) (val largest_fraction)) as [?|?|?]; try exact G. lra.
Qed.

Definition floor_ok (floor : option (f64 * f64)) : Prop :=
  match floor with Some (t, x) => not_negative t /\ in_bounds x | None => True end.
Definition above_floor (floor : option (f64 * f64)) (s : gas) : Prop :=
  match floor with Some (t, x) => lt (temperature s) t = false /\ value x <= value (fraction s) | None => True end.
Definition valid (floor : option (f64 * f64)) (s : gas) : Prop :=
  not_negative (temperature s) /\ in_bounds (fraction s) /\ above_floor floor s.

Lemma not_negative_nan x : not_negative x -> x <> B754_nan.
Proof. intros H ->. exact H. Qed.
Lemma lt_irrefl x : not_negative x -> lt x x = false.
Proof.
  intro H. destruct (is_finite x) eqn:F.
  - rewrite lt_val by exact F. apply Rlt_bool_false. lra.
  - destruct x as [s|s| |s m e B]; try discriminate; [|contradiction]. destruct s; reflexivity.
Qed.

Lemma clamp_valid floor s : floor_ok floor -> not_negative (temperature s) -> fraction s <> B754_nan ->
  exists s', clamp floor s = Some s' /\ valid floor s'.
Proof.
  intros FO T N. unfold clamp. assert (L : fin (fraction_floor floor) /\ val fraction_epsilon <= val (fraction_floor floor) <= val largest_fraction).
  { destruct floor as [[t x]|]; cbn [fraction_floor]; [exact (proj2 FO)|]. pose proof eps_lt. split; [exact eps_fin | lra]. }
  destruct L as [FL VL]. destruct (clamp64_valid (fraction s) (fraction_floor floor) FL ltac:(lra) N) as (y & -> & Fy & Vy).
  eexists. split; [reflexivity|]. unfold valid. cbn [temperature fraction]. split.
  - destruct floor as [[t x]|]; [|exact T]. destruct (lt (temperature s) t); [exact (proj1 FO) | exact T].
  - split; [split; [exact Fy | change (value ?x) with (val x) in *; lra]|]. destruct floor as [[t x]|]; [|exact I]. cbn [above_floor temperature fraction].
    cbn [fraction_floor] in Vy. split; [|exact (proj1 Vy)]. destruct (lt (temperature s) t) eqn:E; [|exact E]. apply lt_irrefl. exact (proj1 FO).
Qed.

Section Runs.
  Variables dT dX : gas -> f64 -> f64.
  Variable floor : option (f64 * f64).
  Variable safety : f64.
  Hypothesis FO : floor_ok floor.
  Hypothesis S : a_safety safety.

  Lemma bounds_not_negative x : in_bounds x -> not_negative x.
  Proof.
    intros [F [L _]]. pose proof eps_pos. change (value ?x) with (val x) in L. destruct x; try discriminate F; cbn [not_negative]; unfold val in *; unfold value; lra.
  Qed.

  Lemma try_valid s h : valid floor s -> exists s' r, try_update dT dX floor safety s h = Some (s', r) /\ (r <> None -> valid floor s').
  Proof.
    intros (T & X & A). unfold try_update. destruct (update64 (temperature s) (dT s h) safety h) as [[t rt]|] eqn:E1.
    2: { eexists _, _. split; [reflexivity|]. congruence. }
    pose proof (update_valid _ _ _ _ _ S T E1) as T'. cbn [fst] in T'. cbn [temperature fraction].
    destruct (update64 (fraction s) _ safety h) as [[x rx]|] eqn:E2.
    2: { eexists _, _. split; [reflexivity|]. congruence. }
    pose proof (update_valid _ _ _ _ _ S (bounds_not_negative _ X) E2) as X'. cbn [fst] in X'.
    destruct (clamp_valid floor (Gas t x) FO T' (not_negative_nan _ X')) as (s' & -> & V).
    eexists _, _. split; [reflexivity|]. intros _. exact V.
  Qed.

  Lemma internal_valid n : forall h s, not_negative (temperature s) -> fraction s <> B754_nan ->
    exists s' r, internal dT dX floor safety n h s = Some (s', r) /\ valid floor s'.
  Proof.
    induction n as [|n IH]; intros h s T N; cbn [internal]; destruct (clamp_valid floor s FO T N) as (s0 & -> & V0).
    - eexists _, _. split; [reflexivity | exact V0].
    - destruct (try_valid s0 h V0) as (s1 & r & -> & V1). destruct r as [r|].
      + eexists _, _. split; [reflexivity|]. apply V1. congruence.
      + assert (N0 : forall g, valid floor g -> not_negative (temperature g) /\ fraction g <> B754_nan).
        { intros g (GT & GX & _). split; [exact GT|]. apply not_negative_nan, bounds_not_negative, GX. }
        destruct (N0 _ V0) as [A B]. destruct (IH (div h (lit 1 1)) s0 A B) as (s2 & r2 & -> & V2). destruct r2 as [r2|].
        * destruct (N0 _ V2) as [A2 B2]. apply (IH _ s2 A2 B2).
        * eexists _, _. split; [reflexivity | exact V2].
  Qed.

  Lemma perform_valid s h : not_negative (temperature s) -> fraction s <> B754_nan ->
    exists s' r, perform_timestep dT dX floor safety s h = Some (s', r) /\ valid floor s'.
  Proof.
    intros T N. unfold perform_timestep. destruct (internal_valid 101 h s T N) as (s' & r & -> & V). destruct r; eexists _, _; split; try reflexivity; exact V.
  Qed.
End Runs.

Lemma abundances_valid prevent dT dX safety s h : a_safety safety -> not_negative (temperature s) -> in_bounds (fraction s) ->
  exists s' r, update_abundances prevent dT dX safety s h = Some (s', r) /\ not_negative (temperature s') /\ in_bounds (fraction s') /\
  (prevent = true -> lt (temperature s') (temperature s) = false /\ value (fraction s) <= value (fraction s')).
Proof.
  intros S T X. unfold update_abundances. set (floor := if prevent then Some (temperature s, fraction s) else None).
  assert (FO : floor_ok floor) by (unfold floor; destruct prevent; [exact (conj T X) | exact I]).
  destruct (perform_valid dT dX floor safety FO S s h T (not_negative_nan _ (bounds_not_negative _ X))) as (s' & r & E & (T' & X' & A)).
  exists s', r. split; [exact E|]. split; [exact T'|]. split; [exact X'|]. intros ->. exact A.
Qed.

(** Without a floor every fraction that is a number is brought into the bounds. *)
Lemma abundances_repaired dT dX safety s h : a_safety safety -> not_negative (temperature s) -> fraction s <> B754_nan ->
  exists s' r, update_abundances false dT dX safety s h = Some (s', r) /\ not_negative (temperature s') /\ in_bounds (fraction s').
Proof.
  intros S T X. destruct (perform_valid dT dX None safety I S s h T X) as (s' & r & E & (T' & X' & _)). exists s', r. auto.
Qed.

Lemma accepted_change v c f h r : a_safety f -> finite v -> bpow radix2 (-900) <= value v -> update64 v c f h = Some r ->
  finite c /\ Rabs (value c) <= value v * (value f * (1 + bpow radix2 (-52)) + bpow radix2 (-1073)) /\ fst r = add v c.
Proof.
  intros S Fv Lv E. pose proof (bpow_gt_0 radix2 (-900)) as B. change (value ?x) with (val x) in *.
  destruct (accepted_finite v c f h r S Fv ltac:(lra) E) as (Fc & A & R). split; [exact Fc|]. split; [|exact R].
  destruct S as [_ Vf]. change (value f) with (val f) in Vf. set (q := val c / val v) in *.
  assert (Q : Rabs (val c) = val v * Rabs q).
  { unfold q. rewrite <- (Rabs_pos_eq (val v)) at 1 by lra. rewrite <- Rabs_mult. f_equal. field. lra. }
  rewrite Q. apply Rmult_le_compat_l; [lra|].
  assert (U : 0 < u) by (unfold u; apply bpow_gt_0). assert (U1 : u <= / 1000) by (rewrite u_eq; lra).
  replace (bpow radix2 (-52)) with (2 * u) by (unfold u; change 2 with (bpow radix2 1); rewrite <- bpow_plus; reflexivity).
  replace (bpow radix2 (-1073)) with (2 * bpow radix2 (-1074)) by (change 2 with (bpow radix2 1); rewrite <- bpow_plus; reflexivity).
  pose proof (bpow_gt_0 radix2 (-1074)) as T. pose proof (Rabs_pos q) as P.
  assert (G : Rabs (rnd q - q) <= u * Rabs q + bpow radix2 (-1074)).
  { destruct (Rle_or_lt (bpow radix2 (-1022)) (Rabs q)) as [H|H].
    - pose proof (rnd_rel q H). lra.
    - assert (L : Rabs q <= bpow radix2 (-1020)). { assert (bpow radix2 (-1022) < bpow radix2 (-1020)) by (apply bpow_lt; lia). lra. }
      pose proof (rnd_err q (-1020) ltac:(lia) L) as E'. change (-1020 - 54)%Z with (-1074)%Z in E'. nra. }
  pose proof (Rabs_triang_inv q (rnd q)) as TI. rewrite Rabs_minus_sym in TI.
  assert (H : Rabs q * (1 - u) <= val f + bpow radix2 (-1074)) by lra.
  assert (K : (val f + bpow radix2 (-1074)) <= (val f * (1 + 2 * u) + 2 * bpow radix2 (-1074)) * (1 - u)).
  { set (t := bpow radix2 (-1074)) in *. clearbody t.
    assert (K1 : 0 <= val f * u * (1 - 2 * u)) by (apply Rmult_le_pos; [apply Rmult_le_pos; lra | lra]).
    assert (K2 : 0 <= t * (1 - 2 * u)) by (apply Rmult_le_pos; lra).
    replace ((val f * (1 + 2 * u) + 2 * t) * (1 - u)) with (val f + val f * u * (1 - 2 * u) + t + t * (1 - 2 * u)) by ring. lra. }
  apply (Rmult_le_reg_r (1 - u)); [lra|]. lra.
Qed.

(** If the changes are not numbers, the state is only brought into the bounds. *)
Lemma nan_rejected v f h : a_safety f -> update64 v B754_nan f h = None.
Proof.
  intro S. unfold update64. assert (Q : div B754_nan v = B754_nan) by (destruct v; reflexivity).
  rewrite Q, min_nan, (safety_lt f S). reflexivity.
Qed.
Lemma clamp_idem s : in_bounds (fraction s) -> clamp None s = Some s.
Proof.
  intros [F [L H]]. unfold clamp, clamp64. cbn [fraction_floor]. unfold cmp.
  rewrite (Bcompare_correct _ _ _ _ eps_fin largest_fin). fold (val fraction_epsilon). fold (val largest_fraction).
  rewrite Rcompare_Lt by exact eps_lt. change (value ?x) with (val x) in *.
  rewrite (lt_val (fraction s)) by (exact F || exact eps_fin). rewrite (lt_val largest_fraction) by (exact F || exact largest_fin).
  rewrite !Rlt_bool_false by assumption. destruct s; reflexivity.
Qed.
Lemma nan_internal dX safety n : a_safety safety -> forall h s, in_bounds (fraction s) ->
  internal (fun _ _ => B754_nan) dX None safety n h s = Some (s, None).
Proof.
  intros S. induction n as [|n IH]; intros h s X; cbn [internal]; rewrite (clamp_idem s X); [reflexivity|].
  unfold try_update. rewrite nan_rejected by exact S. now rewrite IH.
Qed.
Lemma nan_state dX safety s h : a_safety safety -> in_bounds (fraction s) ->
  update_abundances false (fun _ _ => B754_nan) dX safety s h = Some (s, div h (lit 10 0)).
Proof. intros S X. unfold update_abundances, perform_timestep. now rewrite nan_internal. Qed.

(** ** Witnesses *)
Definition half : f64 := lit 1 (-1).
Lemma half_value : value half = / 2.
Proof.
  change (value half) with (val half). unfold half. destruct (val_lit 1 (-1)) as [E|E].
  - rewrite E, Rmult_1_l. rewrite rnd_fmt by (apply fmt_bpow; lia). cbn. lra.
  - exfalso. rewrite Rmult_1_l, Rabs_pos_eq in E by apply bpow_ge_0. assert (bpow radix2 (-1) < bpow radix2 1000) by (apply bpow_lt; lia). lra.
Qed.
Lemma half_safety : a_safety half.
Proof. split; [reflexivity|]. rewrite half_value. lra. Qed.
Lemma half_bounds : in_bounds half.
Proof.
  split; [reflexivity|]. split; left.
  - apply lt_true; [exact eps_fin | reflexivity | vm_cast_no_check (eq_refl true)].
  - apply lt_true; [reflexivity | exact largest_fin | vm_cast_no_check (eq_refl true)].
Qed.

(** With a floor of one, [clamp] panics; a fraction that is not a number stays one. *)
Lemma floor_panics : exists s, not_negative (temperature s) /\ finite (fraction s) /\ 0 <= value (fraction s) <= 1 /\
  forall dT dX safety h, update_abundances true dT dX safety s h = None.
Proof.
  exists (Gas one one). cbn [temperature fraction]. change (value one) with (val one). rewrite val_one.
  split; [change (0 <= val one); rewrite val_one; lra|]. split; [reflexivity|]. split; [lra|].
  intros dT dX safety h. unfold update_abundances, perform_timestep.
  assert (C : clamp (Some (one, one)) (Gas one one) = None).
  { unfold clamp, clamp64. cbn [fraction_floor fraction]. unfold cmp. rewrite (Bcompare_correct 53 1024 one largest_fraction eq_refl largest_fin).
    fold (val one). fold (val largest_fraction). rewrite Rcompare_Gt; [reflexivity|]. rewrite val_one. exact largest_lt. }
  assert (D : forall n, internal dT dX (Some (one, one)) safety n h (Gas one one) = None) by (intros [|n]; cbn [internal]; now rewrite C).
  cbn [temperature fraction]. now rewrite D.
Qed.
