(** Proofs about coordinates with rounding: mapping to [1, 2], periodic wrap, nearest images and integer positions. *)
From Coq Require Import ZArith QArith Qreals Reals Lra Lia Bool List Psatz.
From Flocq Require Import Core IEEE754.BinarySingleNaN Relative Sterbenz.
From Verif Require Import Geometry_Model Float_Model Float_Proofs.
Import ListNotations.
Open Scope R_scope.

(** Sizes without overflow or underflow. *)
Definition mid (x : R) : Prop := bpow radix2 (-900) <= x <= bpow radix2 900.

Lemma p900_1000 : bpow radix2 900 * 4 <= bpow radix2 1000.
Proof. replace 4 with (bpow radix2 2) by (cbn; lra). rewrite <- bpow_plus. apply bpow_le. lia. Qed.
Lemma p900_pos : 0 < bpow radix2 (-900).
Proof. apply bpow_gt_0. Qed.
Lemma p_inv e : / bpow radix2 e = bpow radix2 (- e).
Proof. symmetry. apply bpow_opp. Qed.

Lemma rnd_pos x : 0 <= x -> 0 <= rnd x.
Proof. intro H. rewrite <- rnd_0. apply rnd_le, H. Qed.

Lemma rnd_idem x : rnd (rnd x) = rnd x.
Proof. apply rnd_fmt. apply generic_format_round; exact _. Qed.

Lemma rnd_1 : rnd 1 = 1.
Proof. apply rnd_fmt. apply (fmt_bpow 0). lia. Qed.
Lemma rnd_2 : rnd 2 = 2.
Proof. apply rnd_fmt. replace 2 with (bpow radix2 1) by (cbn; lra). apply fmt_bpow. lia. Qed.

Lemma fmt_1mu : fmt (1 - u).
Proof.
  apply (multiple_fmt (-53)); [lia | |].
  - exists (2 ^ 53 - 1)%Z. rewrite u_eq. cbn. lra.
  - rewrite Rabs_pos_eq; rewrite u_eq; cbn; lra.
Qed.

(** [2 - u] is rounded to 2. *)
Lemma rnd_2mu : rnd (2 - u) = 2.
Proof.
  destruct (val_lit (2 ^ 54 - 1) (-53)) as [E | E].
  - replace (IZR (2 ^ 54 - 1) * bpow radix2 (-53)) with (2 - u) in E.
    + rewrite <- E. unfold val, lit. vm_compute. lra.
    + rewrite u_eq. cbn. lra.
  - exfalso. assert (H : Rabs (IZR (2 ^ 54 - 1) * bpow radix2 (-53)) <= bpow radix2 1).
    { rewrite Rabs_pos_eq; cbn; lra. }
    assert (bpow radix2 1 < bpow radix2 1000) by (apply bpow_lt; lia). lra.
Qed.

Lemma div_le a b c : 0 < b -> a <= c * b -> a / b <= c.
Proof. intros H H1. apply (Rmult_le_reg_r b); [exact H |]. unfold Rdiv. rewrite Rmult_assoc, Rinv_l by lra. lra. Qed.
Lemma le_div a b c : 0 < b -> c * b <= a -> c <= a / b.
Proof. intros H H1. apply (Rmult_le_reg_r b); [exact H |]. unfold Rdiv. rewrite (Rmult_assoc a), Rinv_l by lra. lra. Qed.

Section Remap.
  Variables (min max : f64).
  Hypothesis Fmin : fin min.
  Hypothesis Fmax : fin max.
  Hypothesis Hmid : mid (val max - val min).

  Let L := rnd (val max - val min).
  Let i := rnd (1 / L).

  Lemma mid_le : bpow radix2 (-900) <= L <= bpow radix2 900.
  Proof.
    unfold L. destruct Hmid as (A & B). apply rnd_le in A. apply rnd_le in B.
    rewrite rnd_fmt in A by (apply fmt_bpow; lia). rewrite (rnd_fmt (bpow radix2 900)) in B by (apply fmt_bpow; lia). lra.
  Qed.

  Lemma L_pos : 0 < L.
  Proof. pose proof mid_le. pose proof p900_pos. lra. Qed.

  Lemma inv_range : bpow radix2 (-900) <= 1 / L <= bpow radix2 900.
  Proof.
    pose proof mid_le as (A & B). pose proof L_pos as P. unfold Rdiv. rewrite Rmult_1_l. split.
    - replace (-900)%Z with (- (900))%Z by lia. rewrite <- p_inv. apply Rinv_le; assumption.
    - replace 900%Z with (- (-900))%Z by lia. rewrite <- p_inv. apply Rinv_le; [apply p900_pos | exact A].
  Qed.

  Lemma side_val : fin (sub max min) /\ val (sub max min) = L.
  Proof.
    apply sub_val; try assumption. destruct Hmid as (A & B). pose proof p900_pos. rewrite Rabs_pos_eq by lra.
    eapply Rle_trans; [exact B | apply bpow_le; lia].
  Qed.

  Lemma inv_val : fin (div one (sub max min)) /\ val (div one (sub max min)) = i.
  Proof.
    destruct side_val as (F & V). pose proof L_pos. pose proof inv_range as (A & B). pose proof p900_pos.
    destruct (div_val one (sub max min) fin_one) as (G & W).
    - rewrite V. lra.
    - rewrite V, val_one, Rabs_pos_eq by lra. eapply Rle_trans; [exact B | apply bpow_le; lia].
    - split; [exact G |]. rewrite W, V, val_one. reflexivity.
  Qed.

  Lemma i_range : 0 < i /\ i <= bpow radix2 900 /\ Rabs (L * i - 1) <= u.
  Proof.
    pose proof inv_range as (A & B). pose proof p900_pos as P. pose proof L_pos as LP.
    assert (E : Rabs (i - 1 / L) <= u * Rabs (1 / L)).
    { apply rnd_rel. rewrite Rabs_pos_eq by lra. eapply Rle_trans; [| exact A]. apply bpow_le. lia. }
    rewrite (Rabs_pos_eq (1 / L)) in E by lra. split; [| split].
    - assert (bpow radix2 (-900) <= i) by (unfold i; rewrite <- (rnd_fmt (bpow radix2 (-900))) by (apply fmt_bpow; lia); apply rnd_le; exact A). lra.
    - unfold i. rewrite <- (rnd_fmt (bpow radix2 900)) by (apply fmt_bpow; lia). apply rnd_le. exact B.
    - replace (L * i - 1) with (L * (i - 1 / L)) by (field; lra). rewrite Rabs_mult, (Rabs_pos_eq L) by lra.
      replace u with (L * (u * (1 / L))) by (field; lra). apply Rmult_le_compat_l; [lra | exact E].
  Qed.

  (** One position. *)
  Variable x : f64.
  Hypothesis Fx : fin x.
  Hypothesis Hx : val min <= val x <= val max.

  Let d := rnd (val x - val min).

  Lemma d_range : 0 <= d <= L.
  Proof. unfold d, L. split; [apply rnd_pos; lra | apply rnd_le; lra]. Qed.

  Lemma frac_range : 0 <= d * i <= 1 + u.
  Proof.
    pose proof d_range. pose proof i_range as (A & B & C). apply Rabs_le_inv in C. split; [nra |].
    apply Rle_trans with (L * i); [| lra]. apply Rmult_le_compat_r; lra.
  Qed.

  Lemma remap_val : fin (remap64 min max x) /\ val (remap64 min max x) = rnd (1 + rnd (d * i)) /\ 0 <= rnd (d * i) <= 1.
  Proof.
    pose proof d_range as (D1 & D2). pose proof mid_le as (M1 & M2). pose proof frac_range as (R1 & R2). pose proof u_pos.
    assert (H1000 : 1 <= bpow radix2 1000) by (apply (bpow_le radix2 0); lia).
    assert (H1 : 4 <= bpow radix2 1000) by (replace 4 with (bpow radix2 2) by (cbn; lra); apply bpow_le; lia).
    destruct (sub_val x min Fx Fmin) as (F1 & V1).
    { rewrite Rabs_pos_eq by lra. destruct Hmid as (_ & B). apply Rle_trans with (val max - val min); [lra |]. eapply Rle_trans; [exact B | apply bpow_le; lia]. }
    fold d in V1. destruct inv_val as (F2 & V2).
    assert (U1 : u <= 1) by (rewrite u_eq; lra).
    destruct (mul_val _ _ F1 F2) as (F3 & V3). { rewrite V1, V2, Rabs_pos_eq by exact R1. lra. }
    rewrite V1, V2 in V3.
    assert (R3 : 0 <= rnd (d * i) <= 1).
    { split; [apply rnd_pos; lra |]. rewrite <- rnd_1u. apply rnd_le. exact R2. }
    destruct (add_val one _ fin_one F3) as (F4 & V4). { rewrite val_one, V3, Rabs_pos_eq by lra. lra. }
    split; [exact F4 |]. split; [| exact R3]. rewrite <- V3. rewrite val_one in V4. exact V4.
  Qed.

  Theorem remap_range : fin (remap64 min max x) /\ 1 <= val (remap64 min max x) <= 2.
  Proof.
    destruct remap_val as (F & -> & R1 & R2). split; [exact F |]. split.
    - rewrite <- rnd_1 at 1. apply rnd_le. lra.
    - rewrite <- rnd_2. apply rnd_le. lra.
  Qed.

  (** The error relative to exact arithmetic. *)
  Theorem remap_error : Rabs (val (remap64 min max x) - (1 + (val x - val min) / (val max - val min))) <= 6 * u.
  Proof.
    destruct remap_val as (F & -> & R1 & R2). pose proof p900_pos as P9. destruct Hmid as (M1 & M2). pose proof u_pos as U.
    set (D := val max - val min) in *. set (e := val x - val min). assert (He : 0 <= e <= D) by (unfold e, D; lra).
    pose proof L_pos as LP. pose proof frac_range as (Q1 & Q2). pose proof i_range as (I1 & I2 & I3). pose proof d_range as (D1 & D2).
    assert (EL : Rabs (L - D) <= u * D).
    { unfold L. fold D. rewrite <- (Rabs_pos_eq D) at 3 by lra. apply rnd_rel. rewrite Rabs_pos_eq by lra. eapply Rle_trans; [| exact M1]. apply bpow_le. lia. }
    assert (Ed : Rabs (d - e) <= u * D).
    { unfold d. fold e. destruct (Rle_or_lt (bpow radix2 (-1022)) e) as [G | G].
      - eapply Rle_trans; [apply rnd_rel; rewrite Rabs_pos_eq by lra; exact G |]. rewrite Rabs_pos_eq by lra. apply Rmult_le_compat_l; lra.
      - eapply Rle_trans; [apply (rnd_err _ (-1020)); [lia |] |].
        + rewrite Rabs_pos_eq by lra. apply Rlt_le. eapply Rlt_le_trans; [exact G | apply bpow_le; lia].
        + apply Rle_trans with (u * bpow radix2 (-900)); [unfold u; rewrite <- bpow_plus; apply bpow_le; lia | apply Rmult_le_compat_l; lra]. }
    assert (E1 : Rabs (rnd (d * i) - d * i) <= u).
    { destruct (Rle_or_lt (d * i) 1) as [G | G].
      - eapply Rle_trans; [apply (rnd_err _ 0); [lia |] |].
        + rewrite Rabs_pos_eq by lra. exact G.
        + unfold u. apply bpow_le. lia.
      - assert (K : rnd (d * i) = 1). { apply Rle_antisym; [exact R2 |]. rewrite <- rnd_1 at 1. apply rnd_le. lra. }
        rewrite K. apply Rabs_le. lra. }
    assert (E2 : Rabs (rnd (1 + rnd (d * i)) - (1 + rnd (d * i))) <= u).
    { change u with (bpow radix2 (1 - 54)). apply rnd_err; [lia |]. rewrite Rabs_pos_eq by lra. cbn. lra. }
    (* d * i against e / D *)
    assert (E3 : Rabs (d * i - e / D) <= 4 * u).
    { assert (DP : 0 < D) by lra.
      apply Rabs_le_inv in EL, Ed, I3.
      set (q := e / D). assert (Hq : e = q * D) by (unfold q; field; lra).
      assert (q0 : 0 <= q <= 1). { unfold q. split; [apply Rmult_le_pos; [lra | apply Rlt_le, Rinv_0_lt_compat; lra] |]. apply div_le; lra. }
      assert (Di : (1 - u) / (1 + u) <= D * i <= (1 + u) / (1 - u)).
      { assert (u < 1) by (rewrite u_eq; lra). split.
        - apply div_le; [lra |]. nra.
        - apply le_div; [lra |]. nra. }
      assert (B1 : 1 - 2 * u <= (1 - u) / (1 + u)).
      { apply le_div; [lra |]. nra. }
      assert (B2 : (1 + u) / (1 - u) <= 1 + 2 * u + 4 * (u * u)).
      { assert (u < 1 / 4) by (rewrite u_eq; lra). apply div_le; [lra |]. nra. }
      replace (d * i - q) with ((d - e) * i + q * (D * i - 1)) by (rewrite Hq; ring).
      assert (K1 : Rabs ((d - e) * i) <= u * (D * i)).
      { rewrite Rabs_mult, (Rabs_pos_eq i) by lra. rewrite <- Rmult_assoc. apply Rmult_le_compat_r; [lra |]. apply Rabs_le. lra. }
      assert (K2 : Rabs (q * (D * i - 1)) <= 2 * u + 4 * (u * u)).
      { rewrite Rabs_mult, (Rabs_pos_eq q) by lra. rewrite <- (Rmult_1_l (2 * u + 4 * (u * u))). apply Rmult_le_compat; [lra | apply Rabs_pos | lra |]. apply Rabs_le. nra. }
      eapply Rle_trans; [apply Rabs_triang |].
      assert (u * (D * i) <= u * (1 + 2 * u + 4 * (u * u))) by (apply Rmult_le_compat_l; lra).
      assert (u * u <= u / 100) by (rewrite u_eq; lra). assert (u * (u * u) <= u / 100) by (rewrite u_eq; lra). nra. }
    apply Rabs_le_inv in E1, E2, E3. apply Rabs_le. fold e. lra.
  Qed.
End Remap.

Theorem remap_min min max : fin min -> fin max -> mid (val max - val min) -> val (remap64 min max min) = 1.
Proof.
  intros F1 F2 M. pose proof p900_pos. assert (H0 : val min <= val min <= val max) by (destruct M; lra).
  destruct (remap_val min max F1 F2 M min F1 H0) as (_ & -> & _). rewrite Rminus_eq_0, rnd_0, Rmult_0_l, rnd_0, Rplus_0_r. apply rnd_1.
Qed.

Theorem remap_max min max : fin min -> fin max -> mid (val max - val min) -> val (remap64 min max max) = 2.
Proof.
  intros F1 F2 M. pose proof p900_pos. assert (H0 : val min <= val max <= val max) by (destruct M; lra).
  destruct (remap_val min max F1 F2 M max F2 H0) as (_ & -> & R1 & R2).
  destruct (i_range min max M) as (_ & _ & E). apply Rabs_le_inv in E.
  assert (K : 1 - u <= rnd (rnd (val max - val min) * rnd (1 / rnd (val max - val min)))).
  { rewrite <- (rnd_fmt _ fmt_1mu). apply rnd_le. lra. }
  apply Rle_antisym.
  - rewrite <- rnd_2. apply rnd_le. lra.
  - rewrite <- rnd_2mu. apply rnd_le. lra.
Qed.

Theorem remap_mono min max x y : fin min -> fin max -> mid (val max - val min) -> fin x -> fin y -> val min <= val x -> val x <= val y -> val y <= val max ->
  val (remap64 min max x) <= val (remap64 min max y).
Proof.
  intros F1 F2 M Fx Fy H1 H2 H3.
  destruct (remap_val min max F1 F2 M x Fx ltac:(lra)) as (_ & -> & _). destruct (remap_val min max F1 F2 M y Fy ltac:(lra)) as (_ & -> & _).
  destruct (i_range min max M) as (I & _). apply rnd_le, Rplus_le_compat_l, rnd_le. apply Rmult_le_compat_r; [lra |]. apply rnd_le. lra.
Qed.

Theorem remap_separate min max x y : fin min -> fin max -> mid (val max - val min) -> fin x -> fin y -> val min <= val x -> val y <= val max ->
  bpow radix2 (-49) * (val max - val min) < val y - val x -> val (remap64 min max x) < val (remap64 min max y).
Proof.
  intros F1 F2 M Fx Fy H1 H2 H3. pose proof p900_pos as P. assert (P49 := bpow_gt_0 radix2 (-49)).
  assert (DP : 0 < val max - val min) by (destruct M; lra).
  assert (S : 0 <= bpow radix2 (-49) * (val max - val min)) by (apply Rmult_le_pos; lra).
  pose proof (remap_error min max F1 F2 M x Fx ltac:(lra)) as A. pose proof (remap_error min max F1 F2 M y Fy ltac:(lra)) as B.
  apply Rabs_le_inv in A, B. set (D := val max - val min) in *.
  assert (E : bpow radix2 (-49) < (val y - val min) / D - (val x - val min) / D).
  { replace ((val y - val min) / D - (val x - val min) / D) with ((val y - val x) / D) by (field; lra).
    apply (Rmult_lt_reg_r D); [exact DP |]. unfold Rdiv. rewrite (Rmult_assoc (val y - val x)), Rinv_l by lra. lra. }
  replace (bpow radix2 (-49)) with (16 * u) in E by (rewrite u_eq; cbn; lra). pose proof u_pos. lra.
Qed.
