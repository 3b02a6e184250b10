(** Proofs about the directions. *)
From Coq Require Import List ZArith QArith Qabs Qfield Lqa Lia Bool Reals.
From Verif Require Import Directions_Model Directions_Spec.
Import ListNotations.
Local Open Scope Q_scope.

Definition px (d : vec3) : Q := fst (fst d).
Definition py (d : vec3) : Q := snd (fst d).
Definition pz (d : vec3) : Q := snd d.
Definition moment (f : vec3 -> Q) (l : list vec3) : Q := sum (map f l).

Lemma sum_flux : forall l x y z, sum (map (fun d => dot d (x, y, z)) l) == moment px l * x + moment py l * y + moment pz l * z.
Proof.
  unfold moment. induction l as [|[[u v] w] l IH]; intros x y z.
  - cbn. ring.
  - cbn [map sum fold_right]. change (fold_right Qplus 0 (map (fun d => dot d (x, y, z)) l)) with (sum (map (fun d => dot d (x, y, z)) l)).
    rewrite IH. cbn [dot px py pz fst snd]. unfold sum. ring.
Qed.
Lemma sum_square : forall l x y z, sum (map (fun d => dot d (x, y, z) * dot d (x, y, z)) l) ==
  moment (fun d => px d * px d) l * (x * x) + moment (fun d => py d * py d) l * (y * y) + moment (fun d => pz d * pz d) l * (z * z) +
  moment (fun d => px d * py d) l * (2 * (x * y)) + moment (fun d => px d * pz d) l * (2 * (x * z)) + moment (fun d => py d * pz d) l * (2 * (y * z)).
Proof.
  unfold moment. induction l as [|[[u v] w] l IH]; intros x y z.
  - cbn. ring.
  - cbn [map sum fold_right]. change (fold_right Qplus 0 (map (fun d => dot d (x, y, z) * dot d (x, y, z)) l)) with (sum (map (fun d => dot d (x, y, z) * dot d (x, y, z)) l)).
    rewrite IH. cbn [dot px py pz fst snd]. unfold sum. ring.
Qed.

Definition close (e a b : Q) : bool := Qle_bool (Qabs (a - b)) e.
Lemma close_le : forall e a b, close e a b = true -> - e <= a - b /\ a - b <= e.
Proof. intros e a b H. apply Qle_bool_iff in H. apply Qabs_Qle_condition in H. exact H. Qed.

Definition size (l : list vec3) : Q := inject_Z (Z.of_nat (length l)).
Definition balanced (l : list vec3) : bool :=
  close (1 # 100000) (moment px l / size l) 0 && close (1 # 100000) (moment py l / size l) 0 && close (1 # 100000) (moment pz l / size l) 0.
Definition isotropic (l : list vec3) : bool :=
  close (1 # 250) (moment (fun d => px d * px d) l / size l) (1 # 3) && close (1 # 250) (moment (fun d => py d * py d) l / size l) (1 # 3) &&
  close (1 # 250) (moment (fun d => pz d * pz d) l / size l) (1 # 3) && close (1 # 250) (moment (fun d => px d * py d) l / size l) 0 &&
  close (1 # 250) (moment (fun d => px d * pz d) l / size l) 0 && close (1 # 250) (moment (fun d => py d * pz d) l / size l) 0.

Lemma mul_bound : forall e m x, - e <= m /\ m <= e -> Qabs (m * x) <= e * Qabs x.
Proof.
  intros e m x [H1 H2]. rewrite Qabs_Qmult. apply Qmult_le_compat_r; [|apply Qabs_nonneg]. apply Qabs_Qle_condition. split; assumption.
Qed.

Lemma balanced_flux : forall l, balanced l = true -> forall x y z, Qabs (mean_flux l (x, y, z)) <= (1 # 100000) * (Qabs x + Qabs y + Qabs z).
Proof.
  intros l H x y z. unfold balanced in H. apply andb_true_iff in H. destruct H as [H Hz]. apply andb_true_iff in H. destruct H as [Hx Hy].
  apply close_le in Hx, Hy, Hz. unfold mean_flux.
  assert (E : sum (map (fun d => dot d (x, y, z)) l) / inject_Z (Z.of_nat (length l)) ==
    (moment px l / size l - 0) * x + (moment py l / size l - 0) * y + (moment pz l / size l - 0) * z).
  { rewrite sum_flux. unfold size, Qdiv. ring. }
  rewrite E. pose proof (mul_bound _ _ x Hx). pose proof (mul_bound _ _ y Hy). pose proof (mul_bound _ _ z Hz).
  eapply Qle_trans; [apply Qabs_triangle|]. pose proof (Qabs_triangle ((moment px l / size l - 0) * x) ((moment py l / size l - 0) * y)). lra.
Qed.

Lemma isotropic_square : forall l, isotropic l = true -> forall x y z,
  Qabs (mean_square l (x, y, z) - (1 # 3) * (x * x + y * y + z * z)) <= (1 # 250) * ((Qabs x + Qabs y + Qabs z) * (Qabs x + Qabs y + Qabs z)).
Proof.
  intros l H x y z. unfold isotropic in H. repeat (apply andb_true_iff in H; destruct H as [H ?]).
  apply close_le in H, H0, H1, H2, H3, H4. unfold mean_square.
  assert (E : sum (map (fun d => dot d (x, y, z) * dot d (x, y, z)) l) / inject_Z (Z.of_nat (length l)) - (1 # 3) * (x * x + y * y + z * z) ==
    (moment (fun d => px d * px d) l / size l - (1 # 3)) * (x * x) + ((moment (fun d => py d * py d) l / size l - (1 # 3)) * (y * y) +
    ((moment (fun d => pz d * pz d) l / size l - (1 # 3)) * (z * z) + ((moment (fun d => px d * py d) l / size l - 0) * (2 * (x * y)) +
    ((moment (fun d => px d * pz d) l / size l - 0) * (2 * (x * z)) + (moment (fun d => py d * pz d) l / size l - 0) * (2 * (y * z))))))).
  { rewrite sum_square. unfold size, Qdiv. ring. }
  rewrite E. clear E.
  generalize dependent (moment (fun d => px d * px d) l / size l - (1 # 3)). generalize dependent (moment (fun d => py d * py d) l / size l - (1 # 3)).
  generalize dependent (moment (fun d => pz d * pz d) l / size l - (1 # 3)). generalize dependent (moment (fun d => px d * py d) l / size l - 0).
  generalize dependent (moment (fun d => px d * pz d) l / size l - 0). generalize dependent (moment (fun d => py d * pz d) l / size l - 0).
  intros m6 B6 m5 B5 m4 B4 m3 B3 m2 B2 m1 B1.
  pose proof (mul_bound _ _ (x * x) B1) as P1. pose proof (mul_bound _ _ (y * y) B2) as P2. pose proof (mul_bound _ _ (z * z) B3) as P3.
  pose proof (mul_bound _ _ (2 * (x * y)) B4) as P4. pose proof (mul_bound _ _ (2 * (x * z)) B5) as P5. pose proof (mul_bound _ _ (2 * (y * z)) B6) as P6.
  assert (X : Qabs (x * x) == Qabs x * Qabs x) by apply Qabs_Qmult. assert (Y : Qabs (y * y) == Qabs y * Qabs y) by apply Qabs_Qmult.
  assert (Z : Qabs (z * z) == Qabs z * Qabs z) by apply Qabs_Qmult.
  assert (D : forall a b, Qabs (2 * (a * b)) == 2 * (Qabs a * Qabs b)) by (intros a b; rewrite Qabs_Qmult, Qabs_Qmult; reflexivity).
  rewrite X in P1. rewrite Y in P2. rewrite Z in P3. rewrite D in P4, P5, P6.
  set (q1 := m1 * (x * x)) in *. set (q2 := m2 * (y * y)) in *. set (q3 := m3 * (z * z)) in *.
  set (q4 := m4 * (2 * (x * y))) in *. set (q5 := m5 * (2 * (x * z))) in *. set (q6 := m6 * (2 * (y * z))) in *.
  pose proof (Qabs_triangle q1 (q2 + (q3 + (q4 + (q5 + q6))))) as T1. pose proof (Qabs_triangle q2 (q3 + (q4 + (q5 + q6)))) as T2.
  pose proof (Qabs_triangle q3 (q4 + (q5 + q6))) as T3. pose proof (Qabs_triangle q4 (q5 + q6)) as T4. pose proof (Qabs_triangle q5 q6) as T5.
  setoid_replace ((1 # 250) * ((Qabs x + Qabs y + Qabs z) * (Qabs x + Qabs y + Qabs z))) with
    ((1 # 250) * (Qabs x * Qabs x) + (1 # 250) * (Qabs y * Qabs y) + (1 # 250) * (Qabs z * Qabs z) + (1 # 250) * (2 * (Qabs x * Qabs y)) +
     (1 # 250) * (2 * (Qabs x * Qabs z)) + (1 # 250) * (2 * (Qabs y * Qabs z))) by ring.
  lra.
Qed.

Definition unit_enough (d : vec3) : bool := close (1 # 500000) (dot d d) 1.
Fixpoint apart (l : list vec3) : bool :=
  match l with [] => true | d :: l => forallb (fun e => Qle_bool (dot d e) (939 # 1000)) l && apart l end.
Lemma apart_pairs : forall l, apart l = true -> ForallOrdPairs (fun d e => dot d e <= 939 # 1000) l.
Proof.
  induction l as [|d l IH]; intros H; [constructor|]. cbn in H. apply andb_true_iff in H. destruct H as [H1 H2].
  constructor; [|auto]. rewrite forallb_forall in H1. apply Forall_forall. intros e He. apply Qle_bool_iff, H1, He.
Qed.

Definition nums : list nat := [1; 16; 21; 32; 64; 84]%nat.
Definition check_table (num : nat) : bool :=
  match from_num3 num with
  | Some l => (length l =? num)%nat && forallb unit_enough l && apart l && ((num =? 1)%nat || balanced l && isotropic l)
  | None => false
  end.
Lemma tables : forallb check_table nums = true.
Proof. vm_compute. reflexivity. Qed.

Lemma from_num_cases : forall num l, from_num3 num = Some l -> In num nums.
Proof.
  intros num l H. unfold nums. do 85 (destruct num as [|num]; [try discriminate H; cbn; tauto|]). discriminate H.
Qed.
Lemma from_num_defined : forall num, (exists l, from_num3 num = Some l) <-> In num nums.
Proof.
  intros num. split; [intros [l H]; exact (from_num_cases num l H)|]. intros H. unfold nums in H. cbn [In] in H.
  destruct H as [<- | [<- | [<- | [<- | [<- | [<- | []]]]]]]; eexists; reflexivity.
Qed.

Theorem table_ok : forall num l, from_num3 num = Some l -> length l = num /\
  (forall d, In d l -> Qabs (dot d d - 1) <= 1 # 500000) /\ ForallOrdPairs (fun d e => dot d e <= 939 # 1000) l.
Proof.
  intros num l H. pose proof tables as T. rewrite forallb_forall in T. specialize (T num (from_num_cases num l H)).
  unfold check_table in T. rewrite H in T. repeat (apply andb_true_iff in T; destruct T as [T ?]).
  split; [now apply Nat.eqb_eq|]. split; [|now apply apart_pairs].
  intros d Hd. rewrite forallb_forall in H2. specialize (H2 d Hd). now apply Qle_bool_iff.
Qed.
Theorem table_isotropic : forall num l, from_num3 num = Some l -> num <> 1%nat -> forall x y z,
  Qabs (mean_flux l (x, y, z)) <= (1 # 100000) * (Qabs x + Qabs y + Qabs z) /\
  Qabs (mean_square l (x, y, z) - (1 # 3) * (x * x + y * y + z * z)) <= (1 # 250) * ((Qabs x + Qabs y + Qabs z) * (Qabs x + Qabs y + Qabs z)).
Proof.
  intros num l H N x y z. pose proof tables as T. rewrite forallb_forall in T. specialize (T num (from_num_cases num l H)).
  unfold check_table in T. rewrite H in T. apply andb_true_iff in T. destruct T as [_ T].
  apply Nat.eqb_neq in N. rewrite N in T. cbn [orb] in T. apply andb_true_iff in T. destruct T as [T1 T2].
  split; [now apply balanced_flux | now apply isotropic_square].
Qed.

(** ** The plane. *)
Local Open Scope R_scope.
Definition angle (num i : nat) : R := (0.125 + INR i / INR num) * 2.0 * PI.

Lemma direction_angle : forall num i, direction2 num i = (cos (angle num i), sin (angle num i)).
Proof. reflexivity. Qed.

Lemma angle_step : forall num i, (0 < num)%nat -> angle num i = PI / 4 + 2 * PI * INR i / INR num.
Proof.
  intros num i H. unfold angle. assert (INR num <> 0) by (apply not_0_INR; lia). replace 0.125 with (1 / 8) by Lra.lra. replace 2.0 with 2 by Lra.lra. field. assumption.
Qed.

Lemma plane_unit : forall num d, In d (from_num2 num) -> fst d * fst d + snd d * snd d = 1.
Proof.
  intros num d H. unfold from_num2 in H. apply in_map_iff in H. destruct H as (i & <- & _). rewrite direction_angle. cbn [fst snd].
  pose proof (sin2_cos2 (angle num i)) as E. unfold Rsqr in E. Lra.lra.
Qed.

Lemma plane_dot : forall num i j, (0 < num)%nat ->
  fst (direction2 num i) * fst (direction2 num j) + snd (direction2 num i) * snd (direction2 num j) = cos (2 * PI * (INR j - INR i) / INR num).
Proof.
  intros num i j H. rewrite !direction_angle. cbn [fst snd]. rewrite <- cos_minus.
  replace (angle num i - angle num j) with (- (2 * PI * (INR j - INR i) / INR num)); [apply cos_neg|].
  rewrite !angle_step by assumption. unfold Rdiv. ring.
Qed.

Lemma plane_apart : forall num i j, (i < j < num)%nat ->
  fst (direction2 num i) * fst (direction2 num j) + snd (direction2 num i) * snd (direction2 num j) <= cos (2 * PI / INR num).
Proof.
  intros num i j H. rewrite plane_dot by lia.
  assert (N : 0 < INR num) by (apply lt_0_INR; lia).
  assert (K : INR j - INR i = INR (j - i)) by (rewrite minus_INR by lia; reflexivity). rewrite K.
  set (k := (j - i)%nat). assert (Hk : (1 <= k < num)%nat) by (unfold k; lia).
  pose proof PI_RGT_0 as P.
  assert (C : forall t, cos (2 * t) = 1 - 2 * (sin t * sin t)) by (intros t; rewrite cos_2a_sin; ring).
  replace (2 * PI * INR k / INR num) with (2 * (PI * INR k / INR num)) by (unfold Rdiv; ring).
  replace (2 * PI / INR num) with (2 * (PI / INR num)) by (unfold Rdiv; ring).
  rewrite !C.
  assert (S : 0 <= sin (PI / INR num) <= sin (PI * INR k / INR num)).
  { assert (Q1 : PI / INR num <= PI * INR k / INR num).
    { unfold Rdiv. apply Rmult_le_compat_r; [left; now apply Rinv_0_lt_compat|]. rewrite <- (Rmult_1_r PI) at 1. apply Rmult_le_compat_l; [Lra.lra|].
      change 1 with (INR 1). apply le_INR. lia. }
    assert (Q2 : PI * INR k / INR num <= PI - PI / INR num).
    { assert (E : PI - PI / INR num - PI * INR k / INR num = PI * (INR num - 1 - INR k) / INR num) by (field; Lra.lra).
      assert (0 <= PI * (INR num - 1 - INR k) / INR num); [|Lra.lra].
      apply Rmult_le_pos; [|left; now apply Rinv_0_lt_compat]. apply Rmult_le_pos; [Lra.lra|].
      assert (INR k + 1 <= INR num); [|Lra.lra]. rewrite <- S_INR. apply le_INR. lia. }
    assert (Q0 : 0 < PI / INR num) by (apply Rdiv_lt_0_compat; assumption).
    split; [apply sin_ge_0; [Lra.lra|]; pose proof (Rlt_le _ _ P); Lra.lra|].
    destruct (Rle_dec (PI * INR k / INR num) (PI / 2)) as [L | L].
    - apply sin_incr_1; Lra.lra.
    - rewrite <- (sin_PI_x (PI * INR k / INR num)). apply sin_incr_1; try Lra.lra. }
  assert (sin (PI / INR num) * sin (PI / INR num) <= sin (PI * INR k / INR num) * sin (PI * INR k / INR num)).
  { apply Rmult_le_compat; Lra.lra. }
  Lra.lra.
Qed.

Lemma rsum_app : forall l1 l2, rsum (l1 ++ l2) = rsum l1 + rsum l2.
Proof. unfold rsum. induction l1 as [|a l1 IH]; intros l2; cbn [app fold_right]; [now rewrite Rplus_0_l|]. rewrite IH. ring. Qed.

Lemma telescope : forall (s u : R) n (f g : R -> R), (forall x, 2 * sin (u / 2) * f x = g (x + u / 2) - g (x - u / 2)) ->
  2 * sin (u / 2) * rsum (map (fun i => f (s + u * INR i)) (seq 0 n)) = g (s + u * INR n - u / 2) - g (s - u / 2).
Proof.
  intros s u n f g H. induction n as [|n IH].
  - cbn. replace (s + u * 0 - u / 2) with (s - u / 2) by ring. ring.
  - rewrite seq_S, map_app, rsum_app, Rmult_plus_distr_l, IH. cbn [map rsum fold_right]. rewrite Rplus_0_r. rewrite Nat.add_0_l.
    rewrite H, S_INR. replace (s + u * (INR n + 1) - u / 2) with (s + u * INR n + u / 2) by field. ring.
Qed.

Theorem plane_balanced : forall num, (2 <= num)%nat ->
  rsum (map fst (from_num2 num)) = 0 /\ rsum (map snd (from_num2 num)) = 0.
Proof.
  intros num H. assert (N : 0 < INR num) by (apply lt_0_INR; lia). pose proof PI_RGT_0 as P.
  set (u := 2 * PI / INR num).
  assert (S : 2 * sin (u / 2) <> 0).
  { assert (0 < sin (u / 2)); [|Lra.lra]. replace (u / 2) with (PI / INR num) by (unfold u; field; Lra.lra).
    assert (2 <= INR num) by (change 2 with (INR 2); apply le_INR; lia).
    apply sin_gt_0; [apply Rdiv_lt_0_compat; assumption|].
    apply Rmult_lt_reg_r with (INR num); [assumption|]. unfold Rdiv. rewrite Rmult_assoc, Rinv_l by Lra.lra.
    rewrite Rmult_1_r. assert (PI * 1 < PI * INR num); [|Lra.lra]. apply Rmult_lt_compat_l; Lra.lra. }
  assert (A : forall i, angle num i = PI / 4 + u * INR i) by (intros i; rewrite angle_step by lia; unfold u; field; Lra.lra).
  assert (T : PI / 4 + u * INR num - u / 2 = (PI / 4 - u / 2) + 2 * PI) by (unfold u; field; Lra.lra).
  split.
  - assert (E : map fst (from_num2 num) = map (fun i => cos (PI / 4 + u * INR i)) (seq 0 num)).
    { unfold from_num2. rewrite map_map. apply map_ext. intros i. rewrite direction_angle, A. reflexivity. }
    rewrite E. apply (Rmult_eq_reg_l (2 * sin (u / 2))); [|exact S].
    rewrite (telescope (PI / 4) u num cos sin).
    + rewrite T. rewrite (sin_plus _ (2 * PI)), cos_2PI, sin_2PI. ring.
    + intros x. rewrite sin_plus, sin_minus. ring.
  - assert (E : map snd (from_num2 num) = map (fun i => sin (PI / 4 + u * INR i)) (seq 0 num)).
    { unfold from_num2. rewrite map_map. apply map_ext. intros i. rewrite direction_angle, A. reflexivity. }
    rewrite E. apply (Rmult_eq_reg_l (2 * sin (u / 2))); [|exact S].
    rewrite (telescope (PI / 4) u num sin (fun x => - cos x)).
    + rewrite T. rewrite (cos_plus _ (2 * PI)), cos_2PI, sin_2PI. ring.
    + intros x. rewrite cos_plus, cos_minus. ring.
Qed.

Theorem explicit_unit : forall x y z, (x, y, z) <> (0, 0, 0) -> exists k x' y' z', explicit (x, y, z) = Some (x', y', z') /\
  0 < k /\ x' = k * x /\ y' = k * y /\ z' = k * z /\ x' * x' + y' * y' + z' * z' = 1.
Proof.
  intros x y z H. unfold explicit.
  assert (S : 0 < x * x + y * y + z * z).
  { destruct (Req_dec x 0) as [->|Hx]; [destruct (Req_dec y 0) as [->|Hy]; [destruct (Req_dec z 0) as [->|Hz]; [now elim H|]|]|].
    - pose proof (Rsqr_pos_lt z Hz). unfold Rsqr in *. Lra.lra.
    - pose proof (Rsqr_pos_lt y Hy). pose proof (Rle_0_sqr z). unfold Rsqr in *. Lra.lra.
    - pose proof (Rsqr_pos_lt x Hx). pose proof (Rle_0_sqr z). pose proof (Rle_0_sqr y). unfold Rsqr in *. Lra.lra. }
  assert (P : 0 < norm3 (x, y, z)) by (apply sqrt_lt_R0; exact S).
  assert (Q : norm3 (x, y, z) * norm3 (x, y, z) = x * x + y * y + z * z) by (apply sqrt_sqrt; Lra.lra).
  destruct (Req_EM_T (norm3 (x, y, z)) 0) as [E|E]; [Lra.lra|].
  generalize dependent (norm3 (x, y, z)). intros n P Q E.
  exists (/ n), (x / n), (y / n), (z / n). split; [reflexivity|]. split; [now apply Rinv_0_lt_compat|].
  split; [unfold Rdiv; ring|]. split; [unfold Rdiv; ring|]. split; [unfold Rdiv; ring|].
  replace (x / n * (x / n) + y / n * (y / n) + z / n * (z / n)) with ((x * x + y * y + z * z) / (n * n)) by (field; exact E).
  rewrite Q. field. Lra.lra.
Qed.
