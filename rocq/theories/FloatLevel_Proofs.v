(** Proofs about the timestep level with rounding. *)
From Coq Require Import ZArith QArith Qround Qreals Reals Lra Lia Psatz.
From Flocq Require Import Core IEEE754.BinarySingleNaN Relative.
From Verif Require Import Float_Model Float_Spec Float_Proofs Float_Coord_Proofs FloatLevel_Model FloatLevel_Spec.
Local Open Scope R_scope.

Lemma to_Q_some x : fin x -> exists q, to_Q x = Some q /\ val x = Q2R q.
Proof.
  intro F. destruct (to_Q x) as [q|] eqn:E.
  - exists q. split; [reflexivity|]. now apply to_Q_val.
  - destruct x; cbn in *; discriminate.
Qed.
Lemma Q2R_Z z : Q2R (inject_Z z) = IZR z.
Proof. unfold Q2R, inject_Z. cbn. lra. Qed.

(** The integer that a finite logarithm is rounded up to. *)
Lemma ceil_finite x : fin x -> exists z, ceil_as_usize x = Z.max 0 (Z.min largest_usize z) /\ val x <= IZR z < val x + 1.
Proof.
  intro F. destruct (to_Q_some x F) as [q [E V]]. exists (Qceiling q). split.
  - destruct x; try discriminate; cbn [ceil_as_usize]; now rewrite E.
  - rewrite V. split.
    + rewrite <- Q2R_Z. apply Qle_Rle, Qle_ceiling.
    + pose proof (Qceiling_lt q) as H. apply Qlt_Rlt in H. rewrite Q2R_Z, minus_IZR in H. lra.
Qed.

Lemma fin_lit m e : Rabs (IZR m * bpow radix2 e) <= bpow radix2 1000 -> fin (lit m e).
Proof.
  intro H. pose proof (binary_normalize_correct 53 1024 gt0 ltmax mode_NE m e false) as C. cbv zeta in C. rewrite fexp_eq in C.
  cbn [round_mode] in C. unfold F2R in C. cbn [Fnum Fexp] in C.
  change (round radix2 (FLT_exp (-1074) 53) ZnearestE (IZR m * bpow radix2 e)) with (rnd (IZR m * bpow radix2 e)) in C.
  rewrite (small_lt _ H) in C. apply C.
Qed.
Lemma factor_val l : (0 <= l <= 1000)%Z -> fin (factor64 l) /\ val (factor64 l) = bpow radix2 (- l).
Proof.
  intro H. assert (B : Rabs (IZR 1 * bpow radix2 (- l)) <= bpow radix2 1000).
  { rewrite Rmult_1_l, Rabs_pos_eq by apply bpow_ge_0. apply bpow_le. lia. }
  split; [apply fin_lit, B|]. unfold factor64. destruct (val_lit 1 (- l)) as [E|E]; [|lra].
  rewrite E, Rmult_1_l. apply rnd_fmt, fmt_bpow. lia.
Qed.
Lemma step_val l m : (0 <= l <= 100)%Z -> fin m -> moderate (val m) ->
  fin (timestep64 l m) /\ val (timestep64 l m) = val m * bpow radix2 (- l).
Proof.
  intros Hl Fm [M1 M2]. destruct (factor_val l ltac:(lia)) as [Ff Vf].
  pose proof (bpow_gt_0 radix2 (-900)) as P.
  assert (Pl : 0 < bpow radix2 (- l)) by apply bpow_gt_0.
  assert (L1 : bpow radix2 (- l) <= 1) by (change 1 with (bpow radix2 0); apply bpow_le; lia).
  assert (B : Rabs (val m * val (factor64 l)) <= bpow radix2 1000).
  { rewrite Vf, Rabs_pos_eq by (apply Rmult_le_pos; lra).
    assert (bpow radix2 900 <= bpow radix2 1000) by (apply bpow_le; lia). nra. }
  destruct (mul_val m (factor64 l) Fm Ff B) as [F V]. split; [exact F|]. unfold timestep64. rewrite V, Vf. apply rnd_fmt.
  assert (N : val m <> 0) by lra.
  set (e := (mag radix2 (val m) - 1)%Z).
  assert (E1 : bpow radix2 e <= Rabs (val m)) by (apply bpow_mag_le; exact N).
  assert (E2 : Rabs (val m) < bpow radix2 (e + 1)) by (unfold e; replace (mag radix2 (val m) - 1 + 1)%Z with (mag radix2 (val m) : Z) by lia; apply bpow_mag_gt).
  assert (E3 : (-901 <= e)%Z).
  { unfold e. assert (-900 + 1 <= mag radix2 (val m))%Z; [|lia]. apply mag_ge_bpow. replace (-900 + 1 - 1)%Z with (-900)%Z by lia.
    rewrite Rabs_pos_eq by lra. exact M1. }
  apply (multiple_fmt (e - 52 - l)); [lia| |].
  - destruct (fmt_multiple e (val m) ltac:(lia) (fmt_val m) E1) as [k K]. exists k. rewrite K at 1.
    rewrite Rmult_assoc, <- bpow_plus. replace (e - 52 + - l)%Z with (e - 52 - l)%Z by lia. reflexivity.
  - rewrite Rabs_mult, (Rabs_pos_eq (bpow _ _)) by lra.
    replace (e - 52 - l + 53)%Z with ((e + 1) + - l)%Z by lia. rewrite bpow_plus. apply Rmult_le_compat_r; lra.
Qed.

Lemma ln2_pos : 0 < ln 2.
Proof. rewrite <- ln_1. apply ln_increasing; lra. Qed.
Lemma bpow_exp z : bpow radix2 z = exp (IZR z * ln 2).
Proof. rewrite bpow_powerRZ. change (IZR radix2) with 2. rewrite powerRZ_Rpower by lra. reflexivity. Qed.
Lemma below_power r y z e : 0 < r -> Rabs (y - ln r / ln 2) <= e -> y <= IZR z -> r <= bpow radix2 z * Rpower 2 e.
Proof.
  intros Hr A Y. rewrite bpow_exp. unfold Rpower. rewrite <- exp_plus, <- Rmult_plus_distr_r.
  rewrite <- (exp_ln r Hr) at 1. pose proof ln2_pos as L.
  assert (B : ln r / ln 2 <= IZR z + e) by (apply Rabs_le_inv in A; lra).
  assert (C : ln r <= (IZR z + e) * ln 2).
  { replace (ln r) with (ln r / ln 2 * ln 2) by (field; lra). apply Rmult_le_compat_r; lra. }
  destruct C as [C|C]; [left; now apply exp_increasing|right; now f_equal].
Qed.
Lemma above_power r y z e : 0 < r -> Rabs (y - ln r / ln 2) <= e -> IZR z < y + 1 -> bpow radix2 z <= 2 * r * Rpower 2 e.
Proof.
  intros Hr A Y. rewrite bpow_exp. unfold Rpower. replace (2 * r) with (exp (ln 2 + ln r)) by (rewrite exp_plus, !exp_ln by lra; reflexivity).
  rewrite <- exp_plus. pose proof ln2_pos as L.
  assert (B : IZR z <= ln r / ln 2 + 1 + e) by (apply Rabs_le_inv in A; lra).
  assert (C : IZR z * ln 2 <= ln 2 + ln r + e * ln 2).
  { replace (ln 2 + ln r + e * ln 2) with ((ln r / ln 2 + 1 + e) * ln 2) by (field; lra). apply Rmult_le_compat_r; lra. }
  destruct C as [C|C]; [left; now apply exp_increasing|right; now f_equal].
Qed.

Theorem level_bounds log2 e n max desired : accurate e log2 -> (1 <= n <= 100)%Z -> finite max -> finite desired ->
  moderate (value max) -> 0 < value desired -> moderate (value max / value desired) ->
  let level := level64 log2 n max desired in let step := timestep64 level max in
  (0 <= level < n)%Z /\ finite step /\ value step = value max * bpow radix2 (- level) /\
  ((level < n - 1)%Z -> value step <= value desired * Rpower 2 e * (1 + bpow radix2 (-52))) /\
  ((0 < level)%Z -> value desired / 2 <= value step * Rpower 2 e * (1 + bpow radix2 (-52))).
Proof.
  intros A Hn Fm Fd Mm Pd Mq. cbv zeta.
  set (q := value max / value desired) in *.
  assert (Pq : 0 < q) by (destruct Mq; pose proof (bpow_gt_0 radix2 (-900)); lra).
  assert (Bq : Rabs q <= bpow radix2 1000).
  { rewrite Rabs_pos_eq by lra. destruct Mq as [_ Q]. assert (bpow radix2 900 <= bpow radix2 1000) by (apply bpow_le; lia). lra. }
  destruct (div_val max desired Fm ltac:(unfold value in Pd; unfold val; lra) Bq) as [Fr Vr].
  change (val max / val desired) with q in Vr.
  assert (E : Rabs (rnd q - q) <= u * q).
  { rewrite <- (Rabs_pos_eq q) at 3 by lra. apply rnd_rel. rewrite Rabs_pos_eq by lra. destruct Mq as [Q _].
    assert (bpow radix2 (-1022) <= bpow radix2 (-900)) by (apply bpow_le; lia). lra. }
  apply Rabs_le_inv in E. rewrite <- Vr in E. set (r := val (div max desired)) in *.
  pose proof u_eq as U. assert (U52 : bpow radix2 (-52) = 2 * u) by (rewrite u_eq; cbn; lra). rewrite U52.
  assert (Pr : 0 < r) by (rewrite U in E; nra).
  destruct (A (div max desired) Fr Pr) as [Fl Al]. change (value (div max desired)) with r in Al.
  destruct (ceil_finite (log2 (div max desired)) Fl) as [z [Ez [Z1 Z2]]].
  assert (LV : level64 log2 n max desired = Z.max 0 (Z.min z (n - 1))).
  { unfold level64. rewrite Ez. unfold largest_usize. lia. }
  set (l := level64 log2 n max desired) in *.
  destruct (step_val l max ltac:(lia) Fm Mm) as [Fs Vs].
  change (value (timestep64 l max)) with (val (timestep64 l max)). rewrite Vs. change (val max) with (value max).
  split; [lia|]. split; [exact Fs|]. split; [reflexivity|].
  assert (PP : 0 < Rpower 2 e) by (apply exp_pos).
  assert (D : value max = value desired * q) by (unfold q; field; lra).
  assert (Pl : 0 < bpow radix2 (- l)) by apply bpow_gt_0.
  assert (I : bpow radix2 l * bpow radix2 (- l) = 1) by (rewrite <- bpow_plus; replace (l + - l)%Z with 0%Z by lia; reflexivity).
  split; intro Hl.
  - assert (Y : val (log2 (div max desired)) <= IZR l) by (apply Rle_trans with (IZR z); [exact Z1|apply IZR_le; lia]).
    pose proof (below_power r _ l e Pr Al Y) as B.
    assert (Q : q <= r * (1 + 2 * u)) by (rewrite U in *; nra).
    rewrite D. rewrite Rmult_assoc.
    assert (X : q * bpow radix2 (- l) <= Rpower 2 e * (1 + 2 * u)).
    { apply Rle_trans with (r * (1 + 2 * u) * bpow radix2 (- l)); [apply Rmult_le_compat_r; lra|].
      apply Rle_trans with (bpow radix2 l * Rpower 2 e * (1 + 2 * u) * bpow radix2 (- l)).
      - apply Rmult_le_compat_r; [lra|]. apply Rmult_le_compat_r; [rewrite U; lra|exact B].
      - replace (bpow radix2 l * Rpower 2 e * (1 + 2 * u) * bpow radix2 (- l)) with (Rpower 2 e * (1 + 2 * u) * (bpow radix2 l * bpow radix2 (- l))) by ring.
        rewrite I. lra. }
    rewrite (Rmult_assoc (value desired)). apply Rmult_le_compat_l; lra.
  - assert (Y : IZR l < val (log2 (div max desired)) + 1) by (apply Rle_lt_trans with (IZR z); [apply IZR_le; lia|exact Z2]).
    pose proof (above_power r _ l e Pr Al Y) as B.
    assert (Q : r <= q * (1 + 2 * u)) by (rewrite U in *; nra).
    rewrite D.
    assert (X : 1 <= 2 * (q * bpow radix2 (- l) * Rpower 2 e * (1 + 2 * u))).
    { apply Rle_trans with (bpow radix2 l * bpow radix2 (- l)); [lra|]. apply Rle_trans with (2 * r * Rpower 2 e * bpow radix2 (- l)); [apply Rmult_le_compat_r; lra|].
      replace (2 * (q * bpow radix2 (- l) * Rpower 2 e * (1 + 2 * u))) with (2 * (q * (1 + 2 * u)) * (Rpower 2 e * bpow radix2 (- l))) by ring.
      replace (2 * r * Rpower 2 e * bpow radix2 (- l)) with (2 * r * (Rpower 2 e * bpow radix2 (- l))) by ring.
      assert (0 < Rpower 2 e * bpow radix2 (- l)) by (apply Rmult_lt_0_compat; lra).
      apply Rmult_le_compat_r; lra. }
    replace (value desired * q * bpow radix2 (- l) * Rpower 2 e * (1 + 2 * u)) with (value desired * (q * bpow radix2 (- l) * Rpower 2 e * (1 + 2 * u))) by ring.
    nra.
Qed.

(** ** The step can be longer than desired *)
(** Sixteen, increased by one in the last place. *)
Definition above_sixteen : f64 := lit (2 ^ 52 + 1) (-48).
Lemma above_sixteen_val : fin above_sixteen /\ val above_sixteen = 16 * (1 + bpow radix2 (-52)).
Proof.
  split; [reflexivity|]. unfold above_sixteen. destruct (val_lit (2 ^ 52 + 1) (-48)) as [E|E].
  - rewrite E. rewrite rnd_fmt; [cbn; lra|]. apply (multiple_fmt (-48)); [lia|eexists; reflexivity|]. rewrite Rabs_pos_eq; cbn; lra.
  - exfalso. assert (H : Rabs (IZR (2 ^ 52 + 1) * bpow radix2 (-48)) <= bpow radix2 5) by (rewrite Rabs_pos_eq; cbn; lra).
    assert (bpow radix2 5 < bpow radix2 1000) by (apply bpow_lt; lia). lra.
Qed.
Lemma div_one x : fin x -> Rabs (val x) <= bpow radix2 1000 -> fin (div x one) /\ val (div x one) = val x.
Proof.
  intros F B. replace (val x) with (val x / val one) in B by (rewrite val_one; field).
  destruct (div_val x one F ltac:(rewrite val_one; lra) B) as [F1 V1]. split; [exact F1|]. rewrite V1, val_one.
  replace (val x / 1) with (val x) by field. apply rnd_fmt, fmt_val.
Qed.
(** ln 2 is larger than one half. *)
Lemma ln2_half : / 2 < ln 2.
Proof.
  apply exp_lt_inv. rewrite exp_ln by lra. pose proof exp_le_3 as E3.
  assert (H : exp (/ 2) * exp (/ 2) = exp 1) by (rewrite <- exp_plus; f_equal; lra).
  pose proof (exp_pos (/ 2)). nra.
Qed.
Lemma above_sixteen_ok : finite above_sixteen /\ finite one /\ moderate (value above_sixteen) /\ 0 < value one /\
  moderate (value above_sixteen / value one).
Proof.
  destruct above_sixteen_val as [Fa Va]. pose proof val_one as V1.
  set (d := bpow radix2 (-52)) in *. assert (Dd : d = / 4503599627370496) by (unfold d; cbn; lra).
  assert (M : moderate (val above_sixteen)).
  { rewrite Va. split.
    - apply Rle_trans with (bpow radix2 0); [apply bpow_le; lia|cbn; lra].
    - apply Rle_trans with (bpow radix2 5); [cbn; lra|apply bpow_le; lia]. }
  change value with val. rewrite V1. replace (val above_sixteen / 1) with (val above_sixteen) by field.
  split; [exact Fa|]. split; [exact fin_one|]. split; [exact M|]. split; [lra|exact M].
Qed.
Lemma exceeds log2 : correctly_rounded log2 ->
  (level64 log2 10 above_sixteen one < 10 - 1)%Z /\ value one < value (timestep64 (level64 log2 10 above_sixteen one) above_sixteen).
Proof.
  intro C. destruct above_sixteen_ok as (_ & _ & M & _). change value with val in M.
  destruct above_sixteen_val as [Fa Va]. pose proof val_one as V1.
  set (d := bpow radix2 (-52)) in *. assert (Dd : d = / 4503599627370496) by (unfold d; cbn; lra).
  change value with val. rewrite V1.
  destruct (div_one above_sixteen Fa) as [Fr Vr].
  { rewrite Va, Rabs_pos_eq by lra. apply Rle_trans with (bpow radix2 5); [cbn; lra|apply bpow_le; lia]. }
  destruct (C (div above_sixteen one) Fr) as [Fl Cl]; [change value with val; rewrite Vr, Va; lra|].
  change value with val in Cl. rewrite Vr, Va in Cl.
  pose proof ln2_half as L2. pose proof ln2_pos as L0.
  (* the logarithm *)
  assert (LN : ln (16 * (1 + d)) / ln 2 = 4 + ln (1 + d) / ln 2).
  { rewrite ln_mult by lra. replace 16 with (2 ^ 4) by lra. rewrite ln_pow by lra. cbn [INR]. field. lra. }
  assert (LP : 0 < ln (1 + d)) by (rewrite <- ln_1; apply ln_increasing; lra).
  assert (LU : ln (1 + d) < d).
  { apply exp_lt_inv. rewrite exp_ln by lra. apply exp_ineq1. lra. }
  set (t := ln (1 + d) / ln 2) in *.
  assert (T0 : 0 < t) by (unfold t; apply Rdiv_lt_0_compat; lra).
  assert (T1 : t < 2 * d).
  { unfold t. apply (Rmult_lt_reg_r (ln 2)); [lra|]. unfold Rdiv. rewrite Rmult_assoc, Rinv_l by lra. nra. }
  set (y := log2 (div above_sixteen one)) in *.
  assert (F4 : finite (lit 1 2) /\ val (lit 1 2) = 4).
  { split; [reflexivity|]. destruct (val_lit 1 2) as [E|E].
    - rewrite E, Rmult_1_l. rewrite rnd_fmt by (apply fmt_bpow; lia). cbn. lra.
    - exfalso. rewrite Rmult_1_l, Rabs_pos_eq in E by apply bpow_ge_0. assert (bpow radix2 2 < bpow radix2 1000) by (apply bpow_lt; lia). lra. }
  destruct F4 as [F4 V4]. specialize (Cl (lit 1 2) F4). rewrite V4, LN in Cl.
  replace (4 - (4 + t)) with (- t) in Cl by ring. rewrite Rabs_Ropp, (Rabs_pos_eq t) in Cl by lra.
  apply Rabs_le_inv in Cl.
  assert (Y : val y = 4).
  { destruct (fmt_multiple 2 (val y) ltac:(lia) (fmt_val y)) as [k K].
    { rewrite Rabs_pos_eq by lra. cbn. lra. }
    replace (2 - 52)%Z with (-50)%Z in K by lia.
    assert (B50 : bpow radix2 (-50) = 4 * d) by (rewrite Dd; cbn; lra). rewrite B50 in K.
    assert (K1 : (4 * (2 ^ 50) <= k)%Z).
    { apply le_IZR. apply (Rmult_le_reg_r (4 * d)); [lra|]. rewrite <- K. rewrite Dd. cbn -[Rmult]. lra. }
    assert (K2 : (k < 4 * (2 ^ 50) + 1)%Z).
    { apply lt_IZR. apply (Rmult_lt_reg_r (4 * d)); [lra|]. rewrite <- K. rewrite plus_IZR. rewrite Dd in *. cbn -[Rmult]. lra. }
    assert (k = 4 * 2 ^ 50)%Z as -> by lia. rewrite K, Dd. cbn -[Rmult]. lra. }
  destruct (ceil_finite y Fl) as [z [Ez [Z1 Z2]]]. rewrite Y in Z1, Z2.
  assert (z = 4)%Z as ->.
  { apply le_IZR in Z1. assert (IZR z < IZR 5) by lra. apply lt_IZR in H. lia. }
  assert (LV : level64 log2 10 above_sixteen one = 4%Z).
  { unfold level64. fold y. rewrite Ez. reflexivity. }
  rewrite LV. split; [lia|]. destruct (step_val 4 above_sixteen ltac:(lia) Fa M) as [_ Vs]. rewrite Vs, Va.
  rewrite Dd. cbn. lra.
Qed.

Theorem can_exceed : exists n max desired, finite max /\ finite desired /\ moderate (value max) /\ 0 < value desired /\
  moderate (value max / value desired) /\ forall log2, correctly_rounded log2 ->
    (level64 log2 n max desired < n - 1)%Z /\ value desired < value (timestep64 (level64 log2 n max desired) max).
Proof.
  exists 10%Z, above_sixteen, one. destruct above_sixteen_ok as (A & B & C & D & E). repeat split; try assumption; try apply C; try apply E; now apply exceeds.
Qed.

(** ** A correctly rounded logarithm exists *)
Definition best_log2 (x : f64) : f64 :=
  let y := rnd (ln (val x) / ln 2) in lit (Ztrunc (scaled_mantissa radix2 (FLT_exp (-1074) 53) y)) (cexp radix2 (FLT_exp (-1074) 53) y).
Lemma log_small x : fin x -> 0 < val x -> Rabs (ln (val x) / ln 2) <= bpow radix2 11.
Proof.
  intros F P. pose proof ln2_pos as L.
  assert (B1 : bpow radix2 (-1074) <= val x).
  { pose proof (fmt_val x) as M. assert (N : val x <> 0) by lra.
    destruct (Rle_or_lt (bpow radix2 (-1074)) (val x)) as [H|H]; [exact H|]. exfalso.
    assert (K : multiple (-1074) (val x)).
    { rewrite M. apply multiple_weaken with (cexp radix2 (FLT_exp (-1074) 53) (val x)); [unfold cexp, FLT_exp; lia|]. unfold F2R. cbn. eexists. reflexivity. }
    destruct (multiple_ge _ _ K) as [K1|K1]; [lra|]. rewrite Rabs_pos_eq in K1 by lra. lra. }
  assert (B2 : val x <= bpow radix2 1024).
  { left. pose proof (abs_B2R_lt_emax 53 1024 x) as H. change (B2R x) with (val x) in H. rewrite Rabs_pos_eq in H by lra. exact H. }
  assert (H1 : forall z, ln (bpow radix2 z) = IZR z * ln 2) by (intro z; rewrite bpow_exp; apply ln_exp).
  assert (L1 : IZR (-1074) * ln 2 <= ln (val x)).
  { rewrite <- H1. destruct B1 as [B1|B1]; [left; apply ln_increasing; [apply bpow_gt_0|exact B1]|rewrite B1; lra]. }
  assert (L2 : ln (val x) <= IZR 1024 * ln 2).
  { rewrite <- H1. destruct B2 as [B2|B2]; [left; apply ln_increasing; [lra|exact B2]|rewrite B2; lra]. }
  change (bpow radix2 11) with 2048. apply Rabs_le. split.
  - apply le_div; [lra|]. nra.
  - apply div_le; [lra|]. nra.
Qed.
Theorem best_log2_rounded : correctly_rounded best_log2.
Proof.
  intros x F P. change (0 < val x) in P. change (value x) with (val x). pose proof (log_small x F P) as S. set (t := ln (val x) / ln 2) in *.
  assert (FR : fmt (rnd t)) by (apply generic_format_round; exact _).
  assert (SR : Rabs (rnd t) <= bpow radix2 11) by (apply rnd_abs_le; [lia|exact S]).
  assert (E : IZR (Ztrunc (scaled_mantissa radix2 (FLT_exp (-1074) 53) (rnd t))) * bpow radix2 (cexp radix2 (FLT_exp (-1074) 53) (rnd t)) = rnd t)
    by (symmetry; exact FR).
  assert (SB : Rabs (rnd t) <= bpow radix2 1000).
  { assert (bpow radix2 11 <= bpow radix2 1000) by (apply bpow_le; lia). lra. }
  assert (V : finite (best_log2 x) /\ val (best_log2 x) = rnd t).
  { unfold best_log2. fold t. split.
    - apply fin_lit. now rewrite E.
    - match goal with |- val (lit ?m ?e) = _ => destruct (val_lit m e) as [W|W] end.
      + rewrite W, E. apply rnd_fmt, FR.
      + rewrite E in W. lra. }
  destruct V as [V1 V2]. split; [exact V1|]. intros w Fw. change (value (best_log2 x)) with (val (best_log2 x)). rewrite V2.
  apply (round_N_pt radix2 (FLT_exp (-1074) 53) (fun n => negb (Z.even n)) t). exact (fmt_val w).
Qed.
Theorem best_log2_accurate : accurate (bpow radix2 (-43)) best_log2.
Proof.
  intros x F P. destruct (best_log2_rounded x F P) as [A B]. split; [exact A|].
  change (0 < val x) in P. pose proof (log_small x F P) as S. change (value x) with (val x) in *. set (t := ln (val x) / ln 2) in *.
  assert (E : Rabs (rnd t - t) <= bpow radix2 (11 - 54)) by (apply rnd_err; [lia|exact S]).
  assert (FR : fmt (rnd t)) by (apply generic_format_round; exact _).
  assert (SR : Rabs (rnd t) <= bpow radix2 11) by (apply rnd_abs_le; [lia|exact S]).
  set (m := Ztrunc (scaled_mantissa radix2 (FLT_exp (-1074) 53) (rnd t))). set (e := cexp radix2 (FLT_exp (-1074) 53) (rnd t)).
  assert (Em : IZR m * bpow radix2 e = rnd t) by (symmetry; exact FR).
  assert (SB : Rabs (rnd t) <= bpow radix2 1000).
  { assert (bpow radix2 11 <= bpow radix2 1000) by (apply bpow_le; lia). lra. }
  assert (W : finite (lit m e)) by (apply fin_lit; now rewrite Em).
  assert (VW : val (lit m e) = rnd t).
  { destruct (val_lit m e) as [X|X]; [rewrite X, Em; apply rnd_fmt, FR|rewrite Em in X; lra]. }
  specialize (B (lit m e) W). change (value (lit m e)) with (val (lit m e)) in B. rewrite VW in B.
  replace (-43)%Z with (11 - 54)%Z by lia. lra.
Qed.

(** ** Desired steps that are no positive numbers *)
Theorem extremes log2 n max : standard_limits log2 -> (1 <= n <= 2 ^ 64)%Z -> finite max -> 0 < value max ->
  level64 log2 n max (B754_zero false) = (n - 1)%Z /\ level64 log2 n max (B754_infinity false) = 0%Z /\ level64 log2 n max B754_nan = 0%Z.
Proof.
  intros (L1 & L2 & L3) Hn F P. destruct max as [s|s| |s m e B]; try discriminate.
  - exfalso. unfold value in P. cbn in P. lra.
  - destruct s.
    { exfalso. unfold value in P. cbn in P. unfold F2R in P. cbn in P. pose proof (bpow_gt_0 radix2 e).
      assert (IZR (Z.neg m) < 0) by (apply IZR_lt; reflexivity). nra. }
    unfold level64. repeat split.
    + change (div (B754_finite false m e B) (B754_zero false)) with (B754_infinity false : f64). rewrite L1. cbn [ceil_as_usize]. unfold largest_usize. lia.
    + change (div (B754_finite false m e B) (B754_infinity false)) with (B754_zero false : f64). rewrite L2. cbn [ceil_as_usize]. lia.
    + change (div (B754_finite false m e B) B754_nan) with (B754_nan : f64). rewrite L3. cbn [ceil_as_usize]. lia.
Qed.
(** Any logarithm with these limits. *)
Definition limits_of (log2 : f64 -> f64) (x : f64) : f64 :=
  match x with B754_infinity false => B754_infinity false | B754_zero _ => B754_infinity true | B754_nan => B754_nan | _ => log2 x end.
