(** Proofs about the periodic wrap, nearest images and integer positions with rounding. *)
From Coq Require Import ZArith QArith Qreals Reals Lra Lia Bool List Psatz.
From Flocq Require Import Core IEEE754.BinarySingleNaN Relative Sterbenz.
From Verif Require Import Geometry_Model Float_Model Float_Proofs Float_Coord_Proofs.
Import ListNotations.
Open Scope R_scope.

(** ** The remainder *)
Lemma bounded_facts m e : SpecFloat.bounded 53 1024 m e = true -> (-1074 <= e)%Z /\ (Zpos m < 2 ^ 53)%Z.
Proof.
  intro H. apply andb_prop in H. destruct H as (H & _). apply Zeq_bool_eq in H. unfold SpecFloat.fexp, SpecFloat.emin in H.
  split; [lia |]. rewrite <- (Z.abs_eq (Zpos m)) by lia. apply (Zpower_gt_Zdigits radix2 53 (Zpos m)). rewrite <- Digits.Zpos_digits2_pos || rewrite <- Zpos_digits2_pos. lia.
Qed.

Lemma rem_val x y : fin x -> fin y -> 0 < val y ->
  fin (rem x y) /\ exists k : Z, val (rem x y) = val x - IZR k * val y /\ Rabs (val (rem x y)) < val y /\ (0 <= val x -> 0 <= val (rem x y)) /\ (val x <= 0 -> val (rem x y) <= 0).
Proof.
  intros Fx Fy Hy. destruct y as [s | s | | s my ey By]; try discriminate Fy; [unfold val in Hy; cbn in Hy; lra |].
  destruct x as [sx | sx | | sx mx ex Bx]; try discriminate Fx.
  - split; [reflexivity |]. exists 0%Z. cbn [rem]. change (val (B754_zero sx)) with 0. rewrite Rabs_R0. repeat split; lra.
  - assert (sy : s = false).
    { destruct s; [| reflexivity]. exfalso. unfold val in Hy. cbn [B2R SpecFloat.cond_Zopp] in Hy.
      assert (F2R (Float radix2 (Z.neg my) ey) < 0) by (apply F2R_lt_0; reflexivity). cbn in Hy. lra. }
    subst s. destruct (bounded_facts _ _ Bx) as (Ex & Mx). destruct (bounded_facts _ _ By) as (Ey & My).
    unfold rem. set (e := Z.min ex ey). set (a := (cond_Zopp sx (Z.pos mx) * 2 ^ (ex - e))%Z). set (b := (Z.pos my * 2 ^ (ey - e))%Z).
    assert (Pa : (0 < 2 ^ (ex - e))%Z) by (apply Z.pow_pos_nonneg; lia). assert (Pb : (0 < 2 ^ (ey - e))%Z) by (apply Z.pow_pos_nonneg; lia).
    assert (b0 : (0 < b)%Z) by (unfold b; lia).
    assert (Va : val (B754_finite sx mx ex Bx) = IZR a * bpow radix2 e).
    { unfold val, a. cbn [B2R]. unfold F2R. cbn [Fnum Fexp]. rewrite mult_IZR, (IZR_Zpower radix2), Rmult_assoc, <- bpow_plus by lia. f_equal. f_equal. lia. }
    assert (Vb : val (B754_finite false my ey By) = IZR b * bpow radix2 e).
    { unfold val, b. cbn [B2R]. unfold F2R. cbn [Fnum Fexp]. rewrite mult_IZR, (IZR_Zpower radix2), Rmult_assoc, <- bpow_plus by lia. f_equal. f_equal. lia. }
    set (q := Z.quot a b). assert (Eq : a = (b * q + Z.rem a b)%Z) by (apply Z.quot_rem; lia).
    assert (Rb : (Z.abs (Z.rem a b) < b)%Z). { pose proof (Z.rem_bound_abs a b ltac:(lia)). lia. }
    assert (Ra : (Z.abs (Z.rem a b) <= Z.abs a)%Z).
    { rewrite <- (Z.rem_abs a b) by lia. rewrite (Z.abs_eq b) by lia. rewrite Z.rem_mod_nonneg by lia. apply Z.mod_le; lia. }
    assert (R53 : (Z.abs (Z.rem a b) < 2 ^ 53)%Z).
    { destruct (Z.min_spec ex ey) as [(_ & E) | (_ & E)].
      - eapply Z.le_lt_trans; [exact Ra |]. unfold a, e. rewrite E, Z.sub_diag, Z.pow_0_r, Z.mul_1_r. destruct sx; cbn; exact Mx.
      - eapply Z.lt_trans; [exact Rb |]. unfold b, e. rewrite E, Z.sub_diag, Z.pow_0_r, Z.mul_1_r. exact My. }
    set (z := Z.rem a b) in *.
    assert (Fz : fmt (IZR z * bpow radix2 e)).
    { apply (multiple_fmt e); [lia | exists z; reflexivity |]. rewrite Rabs_mult, (Rabs_pos_eq (bpow radix2 e)), bpow_plus, (Rmult_comm (bpow radix2 e)) by apply bpow_ge_0.
      apply Rmult_le_compat_r; [apply bpow_ge_0 |]. rewrite <- abs_IZR. change (bpow radix2 53) with (IZR (2 ^ 53)). apply IZR_le. lia. }
    pose proof (binary_normalize_correct 53 1024 gt0 ltmax mode_NE z e sx) as C. cbv zeta in C. rewrite fexp_eq in C. cbn [round_mode] in C. unfold F2R in C. cbn [Fnum Fexp] in C.
    change (round radix2 (FLT_exp (-1074) 53) ZnearestE (IZR z * bpow radix2 e)) with (rnd (IZR z * bpow radix2 e)) in C.
    rewrite (rnd_fmt _ Fz) in C.
    assert (Pe := bpow_gt_0 radix2 e).
    assert (Lt : Rabs (IZR z * bpow radix2 e) < val (B754_finite false my ey By)).
    { rewrite Vb, Rabs_mult, (Rabs_pos_eq (bpow radix2 e)) by lra. apply Rmult_lt_compat_r; [exact Pe |]. rewrite <- abs_IZR. apply IZR_lt. exact Rb. }
    rewrite Rlt_bool_true in C.
    2: { eapply Rlt_trans; [exact Lt |]. eapply Rle_lt_trans; [apply Rle_abs |]. apply abs_B2R_lt_emax. }
    destruct C as (C1 & C2 & _). split; [exact C2 |]. exists q. match type of C1 with B2R ?t = _ => change (val t = IZR z * bpow radix2 e) in C1 end. rewrite !C1. repeat split.
    + rewrite Va, Vb, Eq, plus_IZR, mult_IZR. ring.
    + exact Lt.
    + intro H. rewrite Va in H. apply Rmult_le_pos; [| lra]. apply IZR_le. apply Z.rem_nonneg; [lia |].
      apply le_IZR. apply (Rmult_le_reg_r (bpow radix2 e)); [exact Pe |]. lra.
    + intro H. rewrite Va in H. assert (z <= 0)%Z.
      { apply Z.rem_nonpos; [lia |]. apply le_IZR. apply (Rmult_le_reg_r (bpow radix2 e)); [exact Pe |]. lra. }
      apply IZR_le in H0. assert (IZR z * bpow radix2 e <= 0 * bpow radix2 e) by (apply Rmult_le_compat_r; lra). lra.
Qed.

(** ** The periodic wrap of a box that begins at 0 *)
Lemma val_zero : val zero = 0. Proof. reflexivity. Qed.

Theorem wrap_val v L : fin v -> fin L -> 0 < val L -> val L <= bpow radix2 1000 -> Rabs (val v) <= bpow radix2 1000 ->
  exists k : Z, 0 <= val v - IZR k * val L < val L /\ fin (wrap64 v zero L) /\ val (wrap64 v zero L) = rnd (val v - IZR k * val L)
    /\ (0 <= val v -> val (wrap64 v zero L) = val v - IZR k * val L).
Proof.
  intros Fv FL HL BL Bv. unfold wrap64.
  destruct (sub_val v zero Fv eq_refl) as (F1 & V1); [rewrite val_zero, Rminus_0_r; exact Bv |].
  rewrite val_zero, Rminus_0_r, (rnd_fmt _ (fmt_val v)) in V1.
  destruct (sub_val L zero FL eq_refl) as (F2 & V2); [rewrite val_zero, Rminus_0_r, Rabs_pos_eq; lra |].
  rewrite val_zero, Rminus_0_r, (rnd_fmt _ (fmt_val L)) in V2.
  destruct (rem_val _ _ F1 F2 ltac:(lra)) as (F3 & k & V3 & B3 & P3 & N3). rewrite V1, V2 in *.
  set (r := rem (sub v zero) (sub L zero)) in *.
  assert (Fin : forall w, fin w -> Rabs (val w) <= bpow radix2 1000 -> fin (add zero w) /\ val (add zero w) = val w).
  { intros w Fw Bw. destruct (add_val zero w eq_refl Fw) as (F & V); [rewrite val_zero, Rplus_0_l; exact Bw |].
    split; [exact F |]. rewrite V, val_zero, Rplus_0_l. apply rnd_fmt, fmt_val. }
  assert (Br : Rabs (val r) <= bpow radix2 1000) by lra.
  unfold rem_euclid. cbv zeta. fold r. rewrite (lt_val r zero F3 eq_refl), val_zero. destruct (Rlt_bool_spec (val r) 0) as [Neg | Pos].
  - exists (k - 1)%Z. rewrite minus_IZR. apply Rabs_lt_inv in B3.
    replace (val v - (IZR k - 1) * val L) with (val r + val L) by lra.
    assert (Ba : Rabs (val r + val (abs (sub L zero))) <= bpow radix2 1000). { rewrite abs_val, V2, (Rabs_pos_eq (val L)), Rabs_pos_eq; lra. }
    destruct (add_val r (abs (sub L zero)) F3 (abs_fin _ F2) Ba) as (F4 & V4). rewrite abs_val, V2, (Rabs_pos_eq (val L)) in V4 by lra.
    destruct (Fin _ F4) as (F5 & V5).
    { rewrite V4. apply rnd_abs_le; [lia |]. rewrite Rabs_pos_eq; lra. }
    split; [lra |]. split; [exact F5 |]. rewrite V5, V4. split; [reflexivity |]. intro H. specialize (P3 H). lra.
  - exists k. destruct (Fin _ F3 Br) as (F5 & V5). rewrite V5, <- V3. apply Rabs_lt_inv in B3. split; [lra |]. split; [exact F5 |]. split; [| reflexivity].
    symmetry. apply rnd_fmt, fmt_val.
Qed.

Lemma rnd_closest x (w : f64) : Rabs (rnd x - x) <= Rabs (val w - x).
Proof. apply (round_N_pt radix2 (FLT_exp (-1074) 53) _ x). apply fmt_val. Qed.

Theorem wrap_range v L : fin v -> fin L -> 0 < val L -> val L <= bpow radix2 1000 -> Rabs (val v) <= bpow radix2 1000 -> 0 <= val (wrap64 v zero L) <= val L.
Proof.
  intros Fv FL HL BL Bv. destruct (wrap_val v L Fv FL HL BL Bv) as (k & K & _ & -> & _). split.
  - apply rnd_pos. lra.
  - apply Rle_trans with (rnd (val L)); [apply rnd_le; lra | apply Req_le, rnd_fmt, fmt_val].
Qed.

(** ** The nearest image *)
Lemma half_val L : fin L -> mid (val L) -> fin (div L (lit 2 0)) /\ val (div L (lit 2 0)) = val L / 2 /\ fin (div (Bopp L) (lit 2 0)) /\ val (div (Bopp L) (lit 2 0)) = - (val L / 2).
Proof.
  intros F (M1 & M2). pose proof p900_pos as P.
  assert (V2 : val (lit 2 0) = 2) by (unfold val, lit; cbn; unfold F2R; cbn; lra).
  assert (Hf : fmt (val L / 2)).
  { assert (M := fmt_multiple (-900) (val L) ltac:(lia) (fmt_val L) ltac:(rewrite Rabs_pos_eq; lra)).
    pose proof (fmt_val L) as G. unfold fmt in G. apply FLT_format_generic in G; [| exact gt0]. destruct G as [f E1 E2 E3].
    assert (N : val L <> 0) by lra.
    apply generic_format_FLT. exists (Float radix2 (Fnum f) (Fexp f - 1)); cbn [Fnum Fexp].
    - rewrite E1. unfold F2R. cbn [Fnum Fexp]. unfold Z.sub. rewrite bpow_plus. change (bpow radix2 (- (1))) with (/ 2). unfold Rdiv. ring.
    - exact E2.
    - destruct (Z_le_gt_dec (-1073) (Fexp f)) as [G | G]; [lia |]. exfalso.
      assert (A : Rabs (val L) < bpow radix2 (53 + -1073)).
      { rewrite E1. unfold F2R. rewrite Rabs_mult, (Rabs_pos_eq (bpow _ _)), bpow_plus by apply bpow_ge_0.
        apply Rlt_le_trans with (bpow radix2 53 * bpow radix2 (Fexp f)).
        - apply Rmult_lt_compat_r; [apply bpow_gt_0 |]. rewrite <- abs_IZR. change (bpow radix2 53) with (IZR (2 ^ 53)). apply IZR_lt. exact E2.
        - apply Rmult_le_compat_l; [apply bpow_ge_0 | apply bpow_le; lia]. }
      rewrite Rabs_pos_eq in A by lra. assert (bpow radix2 (53 + -1073) <= bpow radix2 (-900)) by (apply bpow_le; lia). lra. }
  assert (B : Rabs (val L / 2) <= bpow radix2 1000).
  { rewrite Rabs_pos_eq by lra. pose proof p900_1000. lra. }
  destruct (div_val L (lit 2 0) F) as (F1 & V1); [rewrite V2; lra | rewrite V2; exact B |].
  assert (Fo : fin (Bopp L)) by (unfold fin; rewrite is_finite_Bopp; exact F).
  assert (Vo : val (Bopp L) = - val L) by apply B2R_Bopp.
  destruct (div_val (Bopp L) (lit 2 0) Fo) as (F3 & V3); [rewrite V2; lra | rewrite V2, Vo; replace (- val L / 2) with (- (val L / 2)) by lra; rewrite Rabs_Ropp; exact B |].
  rewrite V2 in V1. rewrite V2, Vo in V3. split; [exact F1 |]. split; [rewrite V1; apply rnd_fmt, Hf |]. split; [exact F3 |].
  rewrite V3. replace (- val L / 2) with (- (val L / 2)) by lra. rewrite rnd_opp, (rnd_fmt _ Hf). reflexivity.
Qed.

Theorem minimize_val v L : fin v -> fin L -> mid (val L) -> Rabs (val v) <= 3 / 2 * val L ->
  fin (minimize64 v L) /\ Rabs (val (minimize64 v L)) <= val L / 2 /\ exists k : Z, val (minimize64 v L) = val v + IZR k * val L.
Proof.
  intros Fv FL M B. destruct (half_val L FL M) as (F1 & V1 & F2 & V2). destruct M as (M1 & M2). pose proof p900_pos as P. pose proof p900_1000 as P9.
  unfold minimize64. cbv zeta. rewrite (lt_val _ _ F1 Fv), V1. apply Rabs_le_inv in B.
  destruct (Rlt_bool_spec (val L / 2) (val v)) as [G | G].
  - assert (S : fmt (val v - val L)). { apply sterbenz; try exact _; [apply fmt_val | apply fmt_val | lra]. }
    destruct (sub_val v L Fv FL) as (F & V). { apply Rabs_le. lra. }
    rewrite (rnd_fmt _ S) in V. rewrite V. split; [exact F |]. split; [apply Rabs_le; lra |]. exists (-1)%Z. lra.
  - rewrite (lt_val _ _ Fv F2), V2. destruct (Rlt_bool_spec (val v) (- (val L / 2))) as [H | H].
    + assert (S : fmt (val v + val L)).
      { replace (val v + val L) with (val L - - val v) by lra. apply sterbenz; try exact _; [apply fmt_val | apply generic_format_opp, fmt_val | lra]. }
      destruct (add_val v L Fv FL) as (F & V). { apply Rabs_le. lra. }
      rewrite (rnd_fmt _ S) in V. rewrite V. split; [exact F |]. split; [apply Rabs_le; lra |]. exists 1%Z. lra.
    + split; [exact Fv |]. split; [apply Rabs_le; lra |]. exists 0%Z. lra.
Qed.

Lemma half_is_least v L k : 0 < L -> Rabs v <= L / 2 -> Rabs v <= Rabs (v + IZR k * L).
Proof.
  intros HL H. destruct (Z.eq_dec k 0) as [-> | N]; [rewrite Rmult_0_l, Rplus_0_r; lra |].
  assert (A : 1 <= Rabs (IZR k)) by (rewrite <- abs_IZR; apply IZR_le; lia).
  assert (C : L <= Rabs (IZR k * L)) by (rewrite Rabs_mult, (Rabs_pos_eq L) by lra; nra).
  pose proof (Rabs_triang_inv (IZR k * L) (- v)) as T. rewrite Rabs_Ropp in T. replace (IZR k * L - - v) with (v + IZR k * L) in T by ring. lra.
Qed.

(** ** Integer positions *)
Lemma rnd_errM x M : bpow radix2 (-900) <= M -> Rabs x <= M -> Rabs (rnd x - x) <= u * M.
Proof.
  intros HM H. destruct (Rle_or_lt (bpow radix2 (-1022)) (Rabs x)) as [G | G].
  - eapply Rle_trans; [apply rnd_rel, G |]. apply Rmult_le_compat_l; [apply Rlt_le, u_pos | exact H].
  - eapply Rle_trans; [apply (rnd_err _ (-1020)); [lia |] |].
    + apply Rlt_le. eapply Rlt_le_trans; [exact G | apply bpow_le; lia].
    + apply Rle_trans with (u * bpow radix2 (-900)); [unfold u; rewrite <- bpow_plus; apply bpow_le; lia | apply Rmult_le_compat_l; [apply Rlt_le, u_pos | exact HM]].
Qed.

Lemma padding_val : fin padding /\ 999 / 1000000 <= val padding <= 1001 / 1000000.
Proof. split; [reflexivity |]. unfold val, padding, lit. vm_compute. lra. Qed.

Section Key.
  Variables (min max : f64).
  Hypothesis Fmin : fin min.
  Hypothesis Fmax : fin max.
  Let D := val max - val min.
  Hypothesis Hmid : bpow radix2 (-800) <= D.
  Hypothesis Bmin : Rabs (val min) <= bpow radix2 40 * D.
  Hypothesis Bmax : Rabs (val max) <= bpow radix2 40 * D.
  Hypothesis Big : D <= bpow radix2 800.

  Let P := mul (sub max min) padding.
  Let minp := sub min P.
  Let maxp := add max P.

  Lemma D_pos : 0 < D.
  Proof. pose proof (bpow_gt_0 radix2 (-800)). lra. Qed.

  Lemma D_le c e : c <= bpow radix2 e -> (e <= 200)%Z -> c * D <= bpow radix2 1000.
  Proof.
    intros Hc He. pose proof D_pos. apply Rle_trans with (bpow radix2 200 * bpow radix2 800).
    - apply Rle_trans with (bpow radix2 200 * D); [apply Rmult_le_compat_r; [lra |]; eapply Rle_trans; [exact Hc | apply bpow_le, He] | apply Rmult_le_compat_l; [apply bpow_ge_0 | exact Big]].
    - rewrite <- bpow_plus. apply bpow_le. lia.
  Qed.
  Lemma D_ge c : 1 <= c -> bpow radix2 (-900) <= c * D.
  Proof. intro Hc. pose proof D_pos. apply Rle_trans with D; [eapply Rle_trans; [| exact Hmid]; apply bpow_le; lia | nra]. Qed.

  Lemma pad_val : fin P /\ 0 <= val P /\ 998 / 1000000 * D <= val P <= 1002 / 1000000 * D.
  Proof.
    pose proof D_pos as DP. destruct padding_val as (Fp & Vp). pose proof u_pos as U. assert (U1 : u <= 1 / 10 ^ 10) by (rewrite u_eq; cbn [pow]; lra).
    assert (A : Rabs D <= 1 * D) by (rewrite Rabs_pos_eq; lra).
    destruct (sub_val max min Fmax Fmin) as (F1 & V1). { fold D. eapply Rle_trans; [exact A | apply (D_le 1 0); [cbn; lra | lia]]. }
    fold D in V1. pose proof (rnd_errM D (1 * D) (D_ge 1 ltac:(lra)) A) as E1. rewrite <- V1 in E1. apply Rabs_le_inv in E1.
    assert (uD : u * (1 * D) <= 1 / 10 ^ 10 * D) by nra.
    set (x := val (sub max min)) in *. assert (X : (1 - 1 / 10 ^ 10) * D <= x <= (1 + 1 / 10 ^ 10) * D) by lra.
    assert (X0 : 0 <= x) by (cbn [pow] in X; nra).
    assert (Y1 : x * val padding <= (1 + 1 / 10 ^ 10) * D * (1001 / 1000000)) by (apply Rmult_le_compat; lra).
    assert (Y2 : (1 - 1 / 10 ^ 10) * D * (999 / 1000000) <= x * val padding) by (apply Rmult_le_compat; cbn [pow] in *; nra).
    assert (Y0 : 0 <= x * val padding) by (apply Rmult_le_pos; lra).
    assert (B : Rabs (x * val padding) <= 1 * D) by (rewrite Rabs_pos_eq by exact Y0; cbn [pow] in *; nra).
    destruct (mul_val _ _ F1 Fp) as (F2 & V2). { fold x. eapply Rle_trans; [exact B | apply (D_le 1 0); [cbn; lra | lia]]. }
    fold x in V2. fold P in F2, V2. pose proof (rnd_errM _ (1 * D) (D_ge 1 ltac:(lra)) B) as E2. rewrite <- V2 in E2. apply Rabs_le_inv in E2.
    split; [exact F2 |]. split; [rewrite V2; apply rnd_pos, Y0 |]. cbn [pow] in *. lra.
  Qed.

  Lemma ends : fin minp /\ fin maxp /\ val min - 13 / 10000 * D <= val minp <= val min /\ val max + 7 / 10000 * D <= val maxp <= val max + 13 / 10000 * D.
  Proof.
    pose proof D_pos as DP. destruct pad_val as (FP & P0 & P1). pose proof u_pos as U.
    assert (B41 : bpow radix2 41 = 2 * bpow radix2 40) by (cbn; lra).
    assert (one40 : 1 <= bpow radix2 40) by (apply (bpow_le radix2 0); lia).
    assert (D40 : D <= bpow radix2 40 * D) by nra.
    assert (u41 : u * (bpow radix2 41 * D) <= 25 / 100000 * D).
    { rewrite <- Rmult_assoc. apply Rmult_le_compat_r; [lra |]. unfold u. rewrite <- bpow_plus. cbn. lra. }
    assert (Q1 : Rabs (val min - val P) <= bpow radix2 41 * D).
    { eapply Rle_trans; [apply Rabs_triang |]. rewrite Rabs_Ropp, (Rabs_pos_eq (val P)) by exact P0. rewrite B41. lra. }
    assert (Q2 : Rabs (val max + val P) <= bpow radix2 41 * D).
    { eapply Rle_trans; [apply Rabs_triang |]. rewrite (Rabs_pos_eq (val P)) by exact P0. rewrite B41. lra. }
    assert (T : bpow radix2 41 * D <= bpow radix2 1000) by (apply (D_le _ 41); [lra | lia]).
    assert (G : bpow radix2 (-900) <= bpow radix2 41 * D) by (apply D_ge; apply (bpow_le radix2 0); lia).
    destruct (sub_val min P Fmin FP) as (F1 & V1); [lra |]. destruct (add_val max P Fmax FP) as (F2 & V2); [lra |].
    fold minp in F1, V1. fold maxp in F2, V2.
    pose proof (rnd_errM _ _ G Q1) as E1. pose proof (rnd_errM _ _ G Q2) as E2. rewrite <- V1 in E1. rewrite <- V2 in E2.
    apply Rabs_le_inv in E1, E2. split; [exact F1 |]. split; [exact F2 |]. split; [split |]; [lra | | lra].
    rewrite V1. rewrite <- (rnd_fmt _ (fmt_val min)) at 2. apply rnd_le. lra.
  Qed.

  Lemma width : fin (sub maxp minp) /\ val (sub maxp minp) = rnd (val maxp - val minp)
    /\ val max - val minp + 6 / 10000 * D <= val (sub maxp minp) <= 1003 / 1000 * D.
  Proof.
    pose proof D_pos as DP. destruct ends as (F1 & F2 & E1 & E2).
    assert (A : Rabs (val maxp - val minp) <= 2 * D) by (rewrite Rabs_pos_eq; unfold D in *; lra).
    destruct (sub_val maxp minp F2 F1) as (F & V). { eapply Rle_trans; [exact A | apply (D_le 2 1); [cbn; lra | lia]]. }
    pose proof (rnd_errM _ _ (D_ge 2 ltac:(lra)) A) as E. rewrite <- V in E. apply Rabs_le_inv in E.
    assert (u * (2 * D) <= 1 / 10 ^ 10 * D). { rewrite <- Rmult_assoc. apply Rmult_le_compat_r; [lra |]. rewrite u_eq. cbn [pow]. lra. }
    split; [exact F |]. split; [exact V |]. cbn [pow] in *. unfold D in *. lra.
  Qed.

  Let W := val (sub maxp minp).

  Lemma scaled_val x : fin x -> val min <= val x <= val max ->
    fin (scaled64 x min max) /\ val (scaled64 x min max) = rnd (rnd (val x - val minp) / W) /\ 0 <= rnd (val x - val minp) / W <= 1 - u.
  Proof.
    intros Fx Hx. pose proof D_pos as DP. destruct ends as (F1 & F2 & E1 & E2). destruct width as (F3 & _ & W1 & W2). fold W in W1, W2.
    assert (A : Rabs (val x - val minp) <= 2 * D) by (rewrite Rabs_pos_eq; unfold D in *; lra).
    destruct (sub_val x minp Fx F1) as (F4 & V4). { eapply Rle_trans; [exact A | apply (D_le 2 1); [cbn; lra | lia]]. }
    pose proof (rnd_errM _ _ (D_ge 2 ltac:(lra)) A) as E. apply Rabs_le_inv in E.
    assert (uD : u * (2 * D) <= 1 / 10 ^ 10 * D). { rewrite <- Rmult_assoc. apply Rmult_le_compat_r; [lra |]. rewrite u_eq. cbn [pow]. lra. }
    assert (N0 : 0 <= rnd (val x - val minp)) by (apply rnd_pos; lra).
    assert (WP : 0 < W) by (unfold D in *; lra).
    assert (Q : 0 <= rnd (val x - val minp) / W <= 1 - u).
    { split; [apply le_div; lra |]. apply div_le; [exact WP |]. assert (u * W <= u * (2 * D)) by (apply Rmult_le_compat_l; [apply Rlt_le, u_pos | lra]).
      cbn [pow] in *. unfold D in *. lra. }
    unfold scaled64. cbv zeta. fold P. fold minp. fold maxp.
    destruct (div_val (sub x minp) (sub maxp minp) F4) as (F5 & V5).
    - fold W. lra.
    - fold W. rewrite V4, Rabs_pos_eq by apply Q. pose proof u_pos. apply Rle_trans with (bpow radix2 0); [cbn; lra | apply bpow_le; lia].
    - split; [exact F5 |]. split; [| exact Q]. rewrite V5, V4. reflexivity.
  Qed.

  Variables (bits largest : Z).
  Hypothesis Hbits : (0 <= bits <= 52)%Z.
  Hypothesis Hlargest : (2 ^ bits <= largest)%Z.

  Lemma subdivisions : fin (lit (2 ^ bits) 0) /\ val (lit (2 ^ bits) 0) = bpow radix2 bits.
  Proof.
    assert (B : IZR (2 ^ bits) * bpow radix2 0 = bpow radix2 bits) by (cbn [bpow]; rewrite Rmult_1_r; apply (IZR_Zpower radix2); lia).
    pose proof (binary_normalize_correct 53 1024 gt0 ltmax mode_NE (2 ^ bits) 0 false) as C. cbv zeta in C. rewrite fexp_eq in C. cbn [round_mode] in C. unfold F2R in C. cbn [Fnum Fexp] in C.
    rewrite B in C. change (round radix2 (FLT_exp (-1074) 53) ZnearestE (bpow radix2 bits)) with (rnd (bpow radix2 bits)) in C.
    rewrite small_lt in C; [| rewrite Rabs_pos_eq by apply bpow_ge_0; apply bpow_le; lia]. destruct C as (C1 & C2 & _).
    split; [exact C2 |]. unfold val. unfold lit. rewrite C1. apply rnd_fmt, fmt_bpow. lia.
  Qed.

  Lemma position_val x : fin x -> val min <= val x <= val max ->
    let q := rnd (rnd (rnd (val x - val minp) / W) * bpow radix2 bits) in
    0 <= q < bpow radix2 bits /\ integer_position bits largest x min max = Ztrunc q.
  Proof.
    intros Fx Hx. cbv zeta. destruct (scaled_val x Fx Hx) as (F & V & Q1 & Q2). destruct subdivisions as (Fs & Vs).
    set (s := rnd (rnd (val x - val minp) / W)) in *. pose proof (bpow_gt_0 radix2 bits) as PB. pose proof u_pos as U.
    assert (S0 : 0 <= s) by (apply rnd_pos, Q1). assert (S1 : s <= 1 - u) by (rewrite <- (rnd_fmt _ fmt_1mu); apply rnd_le, Q2).
    assert (T1 : s * bpow radix2 bits <= (1 - u) * bpow radix2 bits) by (apply Rmult_le_compat_r; lra).
    assert (Ff : fmt ((1 - u) * bpow radix2 bits)).
    { apply (multiple_fmt (-53 + bits)); [lia | |].
      - apply multiple_mult; [exists (2 ^ 53 - 1)%Z; rewrite u_eq; cbn; lra | exists 1%Z; lra].
      - rewrite Rabs_pos_eq by (apply Rmult_le_pos; [rewrite u_eq; lra | lra]). replace (-53 + bits + 53)%Z with bits by lia. rewrite <- (Rmult_1_l (bpow radix2 bits)) at 2. apply Rmult_le_compat_r; lra. }
    assert (R : 0 <= rnd (s * bpow radix2 bits) < bpow radix2 bits).
    { split; [apply rnd_pos; apply Rmult_le_pos; lra |]. apply rnd_le in T1. rewrite (rnd_fmt _ Ff) in T1. nra. }
    split; [exact R |].
    assert (B1 : bpow radix2 bits <= bpow radix2 1000) by (apply bpow_le; lia).
    destruct (mul_val (scaled64 x min max) (lit (2 ^ bits) 0) F Fs) as (Fm & Vm).
    { rewrite V, Vs, Rabs_pos_eq by (apply Rmult_le_pos; lra). nra. }
    rewrite V, Vs in Vm. unfold integer_position. set (z := mul (scaled64 x min max) (lit (2 ^ bits) 0)) in *.
    assert (Bt : Btrunc z = Ztrunc (val z)).
    { pose proof (Btrunc_correct 53 1024 ltmax z) as C. unfold round, F2R, scaled_mantissa, cexp, FIX_exp in C. cbn [Fnum Fexp] in C. cbn [Z.opp bpow] in C. rewrite !Rmult_1_r in C. apply eq_IZR in C. exact C. }
    assert (Cz : cast largest z = Z.max 0 (Z.min largest (Btrunc z))) by (destruct z; try discriminate Fm; reflexivity).
    rewrite Cz, Bt, Vm.
    assert (Z0 : (0 <= Ztrunc (rnd (s * bpow radix2 bits)))%Z) by (rewrite <- (Ztrunc_IZR 0); apply Ztrunc_le; apply R).
    assert (Z1 : (Ztrunc (rnd (s * bpow radix2 bits)) <= 2 ^ bits)%Z).
    { rewrite <- (Ztrunc_IZR (2 ^ bits)). apply Ztrunc_le. rewrite (IZR_Zpower radix2) by lia. lra. }
    lia.
  Qed.

  Theorem position_range x : fin x -> val min <= val x <= val max -> (0 <= integer_position bits largest x min max < 2 ^ bits)%Z.
  Proof.
    intros Fx Hx. destruct (position_val x Fx Hx) as ((A & B) & ->). set (q := rnd _) in *. split.
    - rewrite <- (Ztrunc_IZR 0). apply Ztrunc_le, A.
    - rewrite Ztrunc_floor by exact A. apply lt_IZR. rewrite (IZR_Zpower radix2) by lia. eapply Rle_lt_trans; [apply Zfloor_lb | exact B].
  Qed.

  Theorem position_mono x y : fin x -> fin y -> val min <= val x -> val x <= val y -> val y <= val max ->
    (integer_position bits largest x min max <= integer_position bits largest y min max)%Z.
  Proof.
    intros Fx Fy H1 H2 H3. destruct (position_val x Fx ltac:(lra)) as (_ & ->). destruct (position_val y Fy ltac:(lra)) as (_ & ->).
    apply Ztrunc_le. apply rnd_le. apply Rmult_le_compat_r; [apply bpow_ge_0 |]. apply rnd_le.
    assert (WP : 0 < W). { destruct width as (_ & _ & W1 & _). destruct ends as (_ & _ & E1 & _). pose proof D_pos. unfold W, D in *. lra. }
    apply Rmult_le_compat_r; [apply Rlt_le, Rinv_0_lt_compat, WP |]. apply rnd_le. lra.
  Qed.

  Theorem position_separate x y : (bits <= 50)%Z -> fin x -> fin y -> val min <= val x -> val y <= val max -> bpow radix2 (1 - bits) * D <= val y - val x ->
    (integer_position bits largest x min max < integer_position bits largest y min max)%Z.
  Proof.
    intros H50 Fx Fy H1 H2 H3. pose proof D_pos as DP. pose proof (bpow_gt_0 radix2 (1 - bits)) as PS. pose proof (bpow_gt_0 radix2 bits) as PB. pose proof u_pos as U.
    assert (K0 : 0 <= bpow radix2 (1 - bits) * D) by (apply Rmult_le_pos; lra).
    assert (Xi : val min <= val x <= val max) by lra. assert (Yi : val min <= val y <= val max) by lra.
    destruct (position_val x Fx Xi) as ((X0 & _) & ->). destruct (position_val y Fy Yi) as ((Y0 & _) & ->).
    destruct (scaled_val x Fx Xi) as (_ & _ & QX1 & QX2). destruct (scaled_val y Fy Yi) as (_ & _ & QY1 & QY2).
    destruct ends as (F1 & F2 & E1 & E2). destruct width as (F3 & _ & W1 & W2). fold W in W1, W2.
    assert (WP : 0 < W) by (unfold D in *; lra).
    assert (AX : Rabs (val x - val minp) <= 2 * D) by (rewrite Rabs_pos_eq; unfold D in *; lra).
    assert (AY : Rabs (val y - val minp) <= 2 * D) by (rewrite Rabs_pos_eq; unfold D in *; lra).
    pose proof (rnd_errM _ _ (D_ge 2 ltac:(lra)) AX) as EX. pose proof (rnd_errM _ _ (D_ge 2 ltac:(lra)) AY) as EY. apply Rabs_le_inv in EX, EY.
    set (a := rnd (val x - val minp)) in *. set (b := rnd (val y - val minp)) in *.
    assert (S1 : 994 / 1000 * bpow radix2 (1 - bits) - 4 * u <= b / W - a / W).
    { replace (b / W - a / W) with ((b - a) / W) by (unfold Rdiv; ring). apply le_div; [exact WP |].
      assert (PP : 4 * u <= 994 / 1000 * bpow radix2 (1 - bits)).
      { apply Rle_trans with (994 / 1000 * bpow radix2 (-49)); [rewrite u_eq; cbn; lra | apply Rmult_le_compat_l; [lra | apply bpow_le; lia]]. }
      assert ((994 / 1000 * bpow radix2 (1 - bits) - 4 * u) * W <= (994 / 1000 * bpow radix2 (1 - bits) - 4 * u) * (1003 / 1000 * D)) by (apply Rmult_le_compat_l; lra).
      assert (0 <= u * D) by (apply Rmult_le_pos; lra). lra. }
    assert (P0 : u = bpow radix2 (0 - 54) * 2) by (unfold u; replace (-53)%Z with ((0 - 54) + 1)%Z by lia; rewrite bpow_plus; reflexivity).
    pose proof (rnd_err (a / W) 0 ltac:(lia) ltac:(rewrite Rabs_pos_eq by exact QX1; cbn; lra)) as RX.
    pose proof (rnd_err (b / W) 0 ltac:(lia) ltac:(rewrite Rabs_pos_eq by exact QY1; cbn; lra)) as RY. apply Rabs_le_inv in RX, RY.
    set (s := rnd (a / W)) in *. set (t := rnd (b / W)) in *.
    assert (S2 : 994 / 1000 * bpow radix2 (1 - bits) - 5 * u <= t - s) by lra.
    assert (s1 : 0 <= s <= 1). { split; [apply rnd_pos, QX1 |]. rewrite <- rnd_1. apply rnd_le. lra. }
    assert (t1 : 0 <= t <= 1). { split; [apply rnd_pos, QY1 |]. rewrite <- rnd_1. apply rnd_le. lra. }
    assert (BS : Rabs (s * bpow radix2 bits) <= bpow radix2 bits) by (rewrite Rabs_pos_eq by (apply Rmult_le_pos; lra); nra).
    assert (BT : Rabs (t * bpow radix2 bits) <= bpow radix2 bits) by (rewrite Rabs_pos_eq by (apply Rmult_le_pos; lra); nra).
    pose proof (rnd_err _ bits ltac:(lia) BS) as RS. pose proof (rnd_err _ bits ltac:(lia) BT) as RT. apply Rabs_le_inv in RS, RT.
    assert (B1 : bpow radix2 (1 - bits) * bpow radix2 bits = 2) by (rewrite <- bpow_plus; replace (1 - bits + bits)%Z with 1%Z by lia; reflexivity).
    assert (B2 : u * bpow radix2 bits <= / 8).
    { unfold u. rewrite <- bpow_plus. apply Rle_trans with (bpow radix2 (-3)); [apply bpow_le; lia | cbn; lra]. }
    assert (B3 : bpow radix2 (bits - 54) <= / 16) by (apply Rle_trans with (bpow radix2 (-4)); [apply bpow_le; lia | cbn; lra]).
    assert (M : (994 / 1000 * bpow radix2 (1 - bits) - 5 * u) * bpow radix2 bits <= (t - s) * bpow radix2 bits) by (apply Rmult_le_compat_r; lra).
    set (q := rnd (s * bpow radix2 bits)) in *. set (r := rnd (t * bpow radix2 bits)) in *.
    assert (G : q + 1 < r) by lra.
    rewrite !Ztrunc_floor by assumption. apply lt_IZR. pose proof (Zfloor_lb q). pose proof (Zfloor_ub r). lra.
  Qed.
End Key.
