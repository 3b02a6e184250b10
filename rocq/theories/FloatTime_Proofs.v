(** Proofs about the time of the simulation with rounding. *)
From Coq Require Import ZArith List Reals Lra Lia Psatz.
From Flocq Require Import Core IEEE754.BinarySingleNaN Relative.
From Verif Require Import Float_Model Float_Spec Float_Proofs FloatTime_Model FloatTime_Spec.
Import ListNotations.
Local Open Scope R_scope.

Lemma at_least_val x y : fin x -> fin y -> at_least x y = Rle_bool (val y) (val x).
Proof.
  intros Fx Fy. unfold at_least, cmp. rewrite (Bcompare_correct _ _ x y Fx Fy). fold (val x). fold (val y).
  destruct (Rcompare_spec (val x) (val y)) as [H|H|H].
  - now rewrite Rle_bool_false.
  - rewrite Rle_bool_true; [reflexivity | lra].
  - rewrite Rle_bool_true; [reflexivity | lra].
Qed.

Lemma total_app l m : total (l ++ m) = total l + total m.
Proof. induction l as [|x l IH]; cbn; [lra | rewrite IH; lra]. Qed.
Lemma total_repeat n d : total (repeat d n) = INR n * value d.
Proof. induction n as [|n IH]; [cbn; lra | cbn [repeat total]; rewrite IH, S_INR; lra]. Qed.
Lemma total_nonneg l : Forall a_step l -> 0 <= total l.
Proof.
  induction 1 as [|x l [_ [H _]] _ IH]; cbn; [lra|]. pose proof (bpow_gt_0 radix2 (-900)). lra.
Qed.
Lemma time_after_snoc l d : time_after (l ++ [d]) = advance (time_after l) d.
Proof. unfold time_after. now rewrite fold_left_app. Qed.
Lemma big_small : 2 * bpow radix2 900 <= bpow radix2 1000.
Proof. change 2 with (bpow radix2 1). rewrite <- bpow_plus. apply bpow_le. lia. Qed.

(** The error of the sum of [n] steps is below [2 n u] times the sum. *)
Lemma sum_error l : Forall a_step l -> 2 * INR (length l) * u <= 1 -> total l <= bpow radix2 900 ->
  fin (time_after l) /\ Rabs (val (time_after l) - total l) <= 2 * INR (length l) * u * total l.
Proof.
  induction l as [|d l IH] using rev_ind; intros A N T.
  { cbn. split; [reflexivity|]. rewrite Rminus_0_r, Rabs_R0. lra. }
  apply Forall_app in A. destruct A as [A D]. inversion D as [|? ? [Fd [Ld Ud]] _]; subst.
  rewrite app_length in *. cbn [length] in *. rewrite plus_INR in *. cbn [INR] in N |- *.
  rewrite total_app in *. cbn [total] in *.
  assert (U : 0 < u) by (unfold u; apply bpow_gt_0).
  pose proof (pos_INR (length l)) as P. pose proof (total_nonneg l A) as Q.
  pose proof (bpow_gt_0 radix2 (-900)) as B. pose proof big_small as BS.
  assert (N' : 2 * INR (length l) * u <= 1) by nra.
  destruct (IH A N' ltac:(lra)) as [F E].
  set (t := time_after l) in *. set (s := total l) in *. set (n := INR (length l)) in *.
  assert (E1 : Rabs (val t - s) <= s) by (eapply Rle_trans; [exact E|]; nra).
  assert (T0 : 0 <= val t) by (apply Rabs_le_inv in E1; lra).
  assert (T1 : val t <= s + 2 * n * u * s) by (apply Rabs_le_inv in E; lra).
  assert (T2 : val t <= s + s) by (apply Rabs_le_inv in E1; lra).
  change (value d) with (val d) in *.
  destruct (add_val t d F Fd) as [F' V].
  { rewrite Rabs_pos_eq by lra. lra. }
  rewrite time_after_snoc. unfold advance. fold t. split; [exact F'|]. rewrite V.
  assert (R1 : Rabs (rnd (val t + val d) - (val t + val d)) <= u * (val t + val d)).
  { rewrite <- (Rabs_pos_eq (val t + val d)) at 3 by lra. apply rnd_rel. rewrite Rabs_pos_eq by lra.
    apply Rle_trans with (bpow radix2 (-900)); [apply bpow_le; lia | lra]. }
  replace (rnd (val t + val d) - (s + (val d + 0))) with ((rnd (val t + val d) - (val t + val d)) + (val t - s)) by lra.
  eapply Rle_trans; [apply Rabs_triang|]. eapply Rle_trans; [apply Rplus_le_compat; [exact R1 | exact E]|].
  replace (2 * (n + 1) * u * (s + (val d + 0))) with (2 * n * u * s + 2 * u * s + 2 * n * u * val d + 2 * u * val d) by lra.
  assert (0 <= n * u * val d) by (apply Rmult_le_pos; [apply Rmult_le_pos|]; lra). nra.
Qed.

Definition eps : R := bpow radix2 (-52).
Lemma eps_u : eps = 2 * u.
Proof. unfold eps, u. change 2 with (bpow radix2 1). rewrite <- bpow_plus. reflexivity. Qed.
Lemma eps_eq : eps = / 4503599627370496.
Proof. unfold eps. cbn. reflexivity. Qed.
Lemma INR_pow n k : (Z.of_nat n <= 2 ^ k)%Z -> (0 <= k)%Z -> INR n <= bpow radix2 k.
Proof. intros H K. rewrite INR_IZR_INZ. rewrite <- IZR_Zpower by exact K. apply IZR_le. exact H. Qed.

Lemma time_close l : Forall a_step l -> (Z.of_nat (length l) <= 2 ^ 52)%Z -> total l <= bpow radix2 900 ->
  finite (time_after l) /\ relatively_close (INR (length l) * eps) (value (time_after l)) (total l).
Proof.
  intros A N T. unfold relatively_close. rewrite eps_u.
  replace (INR (length l) * (2 * u)) with (2 * INR (length l) * u) by ring. apply sum_error; try assumption.
  apply INR_pow in N; [|lia]. rewrite u_eq. cbn in N. lra.
Qed.

Lemma time_grows l d : Forall a_step (l ++ [d]) -> (Z.of_nat (length l) <= 2 ^ 52)%Z -> total (l ++ [d]) <= bpow radix2 900 ->
  value (time_after l) <= value (time_after (l ++ [d])).
Proof.
  intros A N T. apply Forall_app in A. destruct A as [A D]. inversion D as [|? ? [Fd [Ld Ud]] _]; subst.
  rewrite total_app in T. cbn [total] in T. pose proof (total_nonneg l A) as Q. pose proof (bpow_gt_0 radix2 (-900)) as B.
  destruct (time_close l A N ltac:(lra)) as [F E]. unfold relatively_close in E. apply Rabs_le_inv in E.
  apply INR_pow in N; [|lia]. pose proof (pos_INR (length l)) as P. pose proof eps_eq as EE. cbn in N.
  assert (X : INR (length l) * eps <= 1) by (rewrite EE; lra).
  pose proof big_small as BS.
  change (value ?x) with (val x) in *. rewrite time_after_snoc. unfold advance.
  destruct (add_val (time_after l) d F Fd) as [F' V].
  { assert (Y : 0 <= INR (length l) * eps * total l <= total l).
    { assert (0 <= INR (length l) * eps) by (rewrite EE; lra). nra. }
    rewrite Rabs_pos_eq by lra. lra. }
  rewrite V. rewrite <- (rnd_fmt (val (time_after l)) (fmt_val _)) at 1. apply rnd_le. lra.
Qed.

Lemma a_step_repeat d n : a_step d -> Forall a_step (repeat d n).
Proof. intro A. apply Forall_forall. intros x H. apply repeat_spec in H. now subst. Qed.

Lemma bpow_grow : bpow radix2 26 * bpow radix2 800 <= bpow radix2 900.
Proof. rewrite <- bpow_plus. apply bpow_le. lia. Qed.

(** The time after [k] equal steps. *)
Lemma equal_steps d k : a_step d -> value d <= bpow radix2 800 -> (Z.of_nat k <= 2 ^ 26)%Z ->
  fin (time_after (repeat d k)) /\ Rabs (val (time_after (repeat d k)) - INR k * val d) <= INR k * INR k * eps * val d.
Proof.
  intros A U K. destruct (time_close (repeat d k)) as [F E].
  - now apply a_step_repeat.
  - rewrite repeat_length. lia.
  - rewrite total_repeat. apply INR_pow in K; [|lia]. destruct A as [_ [L _]]. pose proof (bpow_gt_0 radix2 (-900)).
    eapply Rle_trans; [|exact bpow_grow]. apply Rmult_le_compat; try lra. apply pos_INR.
  - unfold relatively_close in E. rewrite repeat_length, total_repeat in E. split; [exact F|].
    eapply Rle_trans; [exact E|]. change (value d) with (val d). lra.
Qed.

Lemma b26 : bpow radix2 26 = 67108864.
Proof. cbn. lra. Qed.
Lemma number_of_steps d T N : a_step d -> value d <= bpow radix2 800 -> finite T -> (1 <= Z.of_nat N < 2 ^ 26)%Z ->
  (INR N - 1) * value d < value T <= INR N * value d ->
  stops (Some T) (time_after (repeat d (S N))) = true /\
  forall k, (k + 2 <= N)%nat -> stops (Some T) (time_after (repeat d k)) = false.
Proof.
  intros A U FT HN [L H]. assert (D : 0 < val d).
  { destruct A as [_ [B _]]. pose proof (bpow_gt_0 radix2 (-900)). change (value d) with (val d) in B. lra. }
  change (value d) with (val d) in *. change (value T) with (val T) in *. unfold stops. split.
  - destruct (equal_steps d (S N) A U ltac:(lia)) as [F E]. rewrite at_least_val by assumption. apply Rle_bool_true.
    apply Rabs_le_inv in E. assert (K : INR (S N) <= bpow radix2 26) by (apply INR_pow; lia). rewrite b26 in K.
    pose proof (pos_INR (S N)) as P. assert (W : INR (S N) * INR (S N) * eps <= 1).
    { rewrite eps_eq. assert (INR (S N) * INR (S N) <= 67108864 * 67108864) by (apply Rmult_le_compat; lra). lra. }
    rewrite S_INR in *. nra.
  - intros k Hk. destruct (equal_steps d k A U ltac:(lia)) as [F E]. rewrite at_least_val by assumption. apply Rle_bool_false.
    apply Rabs_le_inv in E. assert (K : INR k <= bpow radix2 26) by (apply INR_pow; lia). rewrite b26 in K.
    pose proof (pos_INR k) as P. assert (W : INR k * INR k * eps <= 1).
    { rewrite eps_eq. assert (INR k * INR k <= 67108864 * 67108864) by (apply Rmult_le_compat; lra). lra. }
    assert (INR k + 2 <= INR N) by (apply le_INR in Hk; rewrite plus_INR in Hk; cbn in Hk; lra). nra.
Qed.

Definition first_list (first : option f64) : list f64 := match first with Some f => [f] | None => [] end.
Lemma output_time_sum f b n : a_first f -> output_time f b n = time_after (first_list f ++ repeat b n).
Proof.
  intro A. induction n as [|n IH].
  - destruct f as [f|]; [|reflexivity]. destruct A as [F [L _]]. cbn. unfold advance.
    destruct f as [s| | |s m e B]; try discriminate; [|reflexivity].
    exfalso. pose proof (bpow_gt_0 radix2 (-900)). unfold value in L. cbn in L. lra.
  - cbn [output_time]. rewrite IH. change (repeat b (S n)) with (b :: repeat b n). rewrite repeat_cons, app_assoc, time_after_snoc.
    reflexivity.
Qed.
Lemma first_steps f b n : a_first f -> a_step b -> Forall a_step (first_list f ++ repeat b n).
Proof.
  intros A B. apply Forall_app. split; [|now apply a_step_repeat]. destruct f; cbn; [|constructor]. constructor; [exact A | constructor].
Qed.
Lemma first_total f b n : total (first_list f ++ repeat b n) = exact_output_time f b n.
Proof. rewrite total_app, total_repeat. unfold exact_output_time. destruct f; cbn; lra. Qed.
Lemma first_length f b n : (length (first_list f ++ repeat b n) <= S n)%nat.
Proof. rewrite app_length, repeat_length. destruct f; cbn; lia. Qed.

Lemma snapshot_due f l b n : Forall a_step l -> a_first f -> a_step b -> (Z.of_nat (length l + n) < 2 ^ 50)%Z ->
  total l <= bpow radix2 900 -> exact_output_time f b n <= bpow radix2 900 ->
  let e := INR (length l + n + 1) * bpow radix2 (-51) in
  (exact_output_time f b n * (1 + e) <= total l -> due f b n (time_after l) = true) /\
  (total l * (1 + e) < exact_output_time f b n -> due f b n (time_after l) = false).
Proof.
  intros A I B N T1 T2. cbv zeta. destruct (time_close l A ltac:(lia) T1) as [F E].
  pose proof (first_length f b n) as FL. pose proof (first_steps f b n I B) as FS.
  destruct (time_close (first_list f ++ repeat b n)) as [F' E'].
  { exact FS. } { lia. } { now rewrite first_total. }
  pose proof (total_nonneg l A) as P1. pose proof (total_nonneg _ FS) as P2.
  rewrite first_total in P2, E'. unfold relatively_close in *. apply Rabs_le_inv in E, E'.
  apply le_INR in FL. rewrite S_INR in FL.
  assert (N1 : INR (length l + n + 1) <= bpow radix2 50) by (apply INR_pow; lia). cbn in N1. rewrite !plus_INR in *. cbn [INR] in *.
  pose proof (pos_INR (length l)). pose proof (pos_INR n). pose proof (pos_INR (length (first_list f ++ repeat b n))).
  replace (bpow radix2 (-51)) with (2 * eps) by (unfold eps; change 2 with (bpow radix2 1); rewrite <- bpow_plus; reflexivity).
  unfold due. rewrite output_time_sum, at_least_val by assumption. change (value (time_after ?x)) with (val (time_after x)) in *.
  set (a := INR (length l) * eps) in *. set (k := INR (length (first_list f ++ repeat b n))) in *.
  set (x := exact_output_time f b n) in *. set (y := total l) in *. set (c := (INR n + 1) * eps).
  assert (KC : k * eps <= c) by (unfold c; rewrite eps_eq; lra).
  assert (A1 : 0 <= a) by (unfold a; rewrite eps_eq; lra). assert (C1 : 0 <= c) by (unfold c; rewrite eps_eq; lra).
  assert (KX : k * eps * x <= c * x) by (apply Rmult_le_compat_r; assumption).
  assert (AC : a + c <= /4) by (unfold a, c; rewrite eps_eq; lra).
  replace ((INR (length l) + INR n + 1) * (2 * eps)) with (2 * (a + c)) by (unfold a, c; ring).
  clearbody a c x y k. split; intro H2.
  - apply Rle_bool_true.
    assert (x * (1 + c) <= y * (1 - a)); [|lra].
    apply Rle_trans with (x * (1 + 2 * (a + c)) * (1 - a)); [|apply Rmult_le_compat_r; lra].
    replace (x * (1 + 2 * (a + c)) * (1 - a)) with (x * ((1 + 2 * (a + c)) * (1 - a))) by ring.
    apply Rmult_le_compat_l; [exact P2|]. nra.
  - apply Rle_bool_false. assert (y * (1 + a) < x * (1 - c)); [|lra].
    apply Rle_lt_trans with (y * (1 + 2 * (a + c)) * (1 - c)); [|apply Rmult_lt_compat_r; lra].
    replace (y * (1 + 2 * (a + c)) * (1 - c)) with (y * ((1 + 2 * (a + c)) * (1 - c))) by ring.
    apply Rmult_le_compat_l; [exact P1|]. nra.
Qed.

(** The number 0.1 of type [f64]. *)
Definition tenth : f64 := lit 0x1999999999999a (-56).
Lemma tenth_value : value tenth = IZR 0x1999999999999a * bpow radix2 (-56).
Proof.
  change (value tenth) with (val tenth). unfold tenth. destruct (val_lit 0x1999999999999a (-56)) as [E|E].
  - rewrite E. apply rnd_fmt. apply (multiple_fmt (-56)); [lia | eexists; reflexivity|]. rewrite Rabs_pos_eq; cbn; lra.
  - exfalso. assert (H : Rabs (IZR 0x1999999999999a * bpow radix2 (-56)) <= bpow radix2 5) by (rewrite Rabs_pos_eq; cbn; lra).
    assert (bpow radix2 5 < bpow radix2 1000) by (apply bpow_lt; lia). lra.
Qed.
Lemma one_value : value one = 1.
Proof.
  change (value one) with (val one). unfold one. destruct (val_lit 1 0) as [E|E].
  - rewrite E. change (IZR 1 * bpow radix2 0) with (1 * 1). rewrite Rmult_1_l. change 1 with (bpow radix2 0). apply rnd_fmt, fmt_bpow. lia.
  - exfalso. assert (H : Rabs (1 * bpow radix2 0) <= bpow radix2 5) by (rewrite Rabs_pos_eq; cbn; lra).
    assert (bpow radix2 5 < bpow radix2 1000) by (apply bpow_lt; lia). lra.
Qed.
Lemma tenth_step : a_step tenth /\ value tenth <= bpow radix2 800.
Proof.
  assert (H : bpow radix2 (-4) <= value tenth <= bpow radix2 0) by (rewrite tenth_value; cbn; lra).
  assert (bpow radix2 (-900) < bpow radix2 (-4)) by (apply bpow_lt; lia).
  assert (bpow radix2 0 < bpow radix2 800) by (apply bpow_lt; lia). assert (bpow radix2 800 < bpow radix2 900) by (apply bpow_lt; lia).
  repeat split; try reflexivity; unfold a_step, moderate; lra.
Qed.

Lemma never_ends now : stops None now = false /\ stops (Some B754_nan) now = false.
Proof. split; [reflexivity|]. destruct now as [s|s| |s m e B]; reflexivity. Qed.

Lemma one_step_more : exists d T N, a_step d /\ finite T /\ (INR N - 1) * value d < value T <= INR N * value d /\
  stops (Some T) (time_after (repeat d N)) = false /\ due None T 1 (time_after (repeat d N)) = false.
Proof.
  exists tenth, one, 10%nat. split; [apply tenth_step|]. split; [reflexivity|]. split.
  - rewrite tenth_value, one_value. cbn. lra.
  - split; vm_compute; reflexivity.
Qed.
