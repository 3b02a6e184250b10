(** Proofs about the in-sphere test with rounding. *)
From Coq Require Import ZArith QArith Qabs Qreals Reals Lra Lia Bool List Psatz.
From Flocq Require Import Core IEEE754.BinarySingleNaN.
From Verif Require Import Geometry_Model Geometry_Spec Geometry_Proofs Float_Model Float_Spec Float_Proofs.
Import ListNotations.
Open Scope R_scope.

(** ** The expressions of the test *)
Definition vax := V 0. Definition vay := V 1. Definition vaz := V 2.
Definition vbx := V 3. Definition vby := V 4. Definition vbz := V 5.
Definition vcx := V 6. Definition vcy := V 7. Definition vcz := V 8.
Definition vdx := V 9. Definition vdy := V 10. Definition vdz := V 11.
Definition sq3 (x y z : ex) : ex := Add (Add (Mul x x) (Mul y y)) (Mul z z).

Definition value_ex : ex :=
  let axby := Mul vax vby in let bxay := Mul vbx vay in let bxcy := Mul vbx vcy in let cxby := Mul vcx vby in
  let cxdy := Mul vcx vdy in let dxcy := Mul vdx vcy in let dxay := Mul vdx vay in let axdy := Mul vax vdy in
  let axcy := Mul vax vcy in let cxay := Mul vcx vay in let bxdy := Mul vbx vdy in let dxby := Mul vdx vby in
  let ab := Sub axby bxay in let bc := Sub bxcy cxby in let cd := Sub cxdy dxcy in
  let da := Sub dxay axdy in let ac := Sub axcy cxay in let bd := Sub bxdy dxby in
  let abc := Add (Sub (Mul vaz bc) (Mul vbz ac)) (Mul vcz ab) in
  let bcd := Add (Sub (Mul vbz cd) (Mul vcz bd)) (Mul vdz bc) in
  let cda := Add (Add (Mul vcz da) (Mul vdz ac)) (Mul vaz cd) in
  let dab := Add (Add (Mul vdz ab) (Mul vaz bd)) (Mul vbz da) in
  let a2 := sq3 vax vay vaz in let b2 := sq3 vbx vby vbz in let c2 := sq3 vcx vcy vcz in let d2 := sq3 vdx vdy vdz in
  Add (Sub (Mul c2 dab) (Mul d2 abc)) (Sub (Mul a2 bcd) (Mul b2 cda)).
Definition size_ex : ex :=
  let axby := Mul vax vby in let bxay := Mul vbx vay in let bxcy := Mul vbx vcy in let cxby := Mul vcx vby in
  let cxdy := Mul vcx vdy in let dxcy := Mul vdx vcy in let dxay := Mul vdx vay in let axdy := Mul vax vdy in
  let axcy := Mul vax vcy in let cxay := Mul vcx vay in let bxdy := Mul vbx vdy in let dxby := Mul vdx vby in
  let ab := Add (Abs axby) (Abs bxay) in let bc := Add (Abs bxcy) (Abs cxby) in let cd := Add (Abs cxdy) (Abs dxcy) in
  let da := Add (Abs dxay) (Abs axdy) in let ac := Add (Abs axcy) (Abs cxay) in let bd := Add (Abs bxdy) (Abs dxby) in
  let abc := Add (Add (Mul (Abs vaz) bc) (Mul (Abs vbz) ac)) (Mul (Abs vcz) ab) in
  let bcd := Add (Add (Mul (Abs vbz) cd) (Mul (Abs vcz) bd)) (Mul (Abs vdz) bc) in
  let cda := Add (Add (Mul (Abs vcz) da) (Mul (Abs vdz) ac)) (Mul (Abs vaz) cd) in
  let dab := Add (Add (Mul (Abs vdz) ab) (Mul (Abs vaz) bd)) (Mul (Abs vbz) da) in
  let a2 := sq3 vax vay vaz in let b2 := sq3 vbx vby vbz in let c2 := sq3 vcx vcy vcz in let d2 := sq3 vdx vdy vdz in
  Add (Add (Mul c2 dab) (Mul d2 abc)) (Add (Mul a2 bcd) (Mul b2 cda)).

(** The size is the sum of the sizes of the terms, for both expressions. *)
Lemma abs_sq x : Rabs x * Rabs x = x * x.
Proof. rewrite <- Rabs_mult, Rabs_pos_eq; nra. Qed.

Lemma size_is_evA s : evA s value_ex = evR s size_ex /\ evA s size_ex = evR s size_ex.
Proof.
  unfold value_ex, size_ex, sq3, vax, vay, vaz, vbx, vby, vbz, vcx, vcy, vcz, vdx, vdy, vdz. cbv zeta. cbn [evA evR]. rewrite !abs_sq, !Rabs_mult. split; reflexivity.
Qed.

Section Filter.
  Variable s : nat -> f64.
  Hypothesis Hfin : forall i, fin (s i).
  Hypothesis Hmul : forall i, multiple (-52) (val (s i)).
  Hypothesis Hle : forall i, Rabs (val (s i)) <= 1.

  Let x := evF s value_ex.
  Let size_limit := evF s size_ex.
  Let bound := mul in_sphere_epsilon size_limit.
  Let X := evR (r s) value_ex.
  Let L := evR (r s) size_ex.

  Lemma eps_val : fin in_sphere_epsilon /\ val in_sphere_epsilon = IZR 0x16849b86a12b9b * bpow radix2 (-99).
  Proof. split; [reflexivity |]. reflexivity. Qed.

  Lemma pow11 : (1 + u) ^ 11 <= 1 + 12 * u.
  Proof. rewrite u_eq. cbn [pow]. lra. Qed.

  Lemma filter_facts :
    fin x /\ fin size_limit /\ fin bound /\ Rabs (val x - X) <= L * (12 * u) /\ Rabs (val size_limit - L) <= L * (12 * u)
    /\ 0 <= L /\ L * (13 * u) <= val bound /\ (L = 0 -> X = 0 /\ val x = 0) /\ (0 < L -> L * (13 * u) < val bound).
  Proof.
    destruct (size_is_evA (r s)) as [A1 A2].
    destruct (error s 1 Hfin Hmul ltac:(lia) Hle value_ex) as (Fx & Mx & Ex); [vm_compute; discriminate | vm_compute; lia | vm_compute; discriminate |].
    destruct (error s 1 Hfin Hmul ltac:(lia) Hle size_ex) as (Fs & Ms & Es); [vm_compute; discriminate | vm_compute; lia | vm_compute; discriminate |].
    fold x X in Fx, Ex. fold size_limit L in Fs, Es, A1, A2. fold size_limit in Ms.
    change (cnt value_ex) with 11%nat in Ex. change (cnt size_ex) with 11%nat in Es. rewrite A1 in Ex. rewrite A2 in Es.
    assert (L0 : 0 <= L) by (rewrite <- A2; apply evA_pos).
    pose proof pow11 as P. pose proof u_pos as U.
    assert (E12 : L * ((1 + u) ^ 11 - 1) <= L * (12 * u)) by (apply Rmult_le_compat_l; lra).
    assert (Lb : L <= IZR (size 1 size_ex)).
    { rewrite <- A2. apply evA_size; [lia | exact Hle]. }
    assert (Lb' : L <= bpow radix2 20).
    { eapply Rle_trans; [exact Lb |]. change (bpow radix2 20) with (IZR (2 ^ 20)). apply IZR_le. vm_compute. discriminate. }
    destruct eps_val as (Fe & Ve).
    assert (Ve' : 9 / 10 ^ 15 <= val in_sphere_epsilon <= 1).
    { rewrite Ve. cbn. lra. }
    assert (Sb : L * (1 - 12 * u) <= val size_limit <= L * (1 + 12 * u)).
    { apply Rabs_le_inv in Es. lra. }
    assert (S0 : 0 <= val size_limit) by (rewrite u_eq in Sb; nra).
    assert (S1 : val size_limit <= bpow radix2 21).
    { replace (bpow radix2 21) with (bpow radix2 20 * 2) by (cbn; lra). rewrite u_eq in Sb. lra. }
    destruct (mul_val in_sphere_epsilon size_limit Fe Fs) as (Fb & Vb).
    { rewrite Rabs_pos_eq by (apply Rmult_le_pos; lra). apply Rle_trans with (bpow radix2 21); [| apply bpow_le; lia]. nra. }
    fold bound in Fb, Vb.
    assert (Hb : val in_sphere_epsilon * val size_limit * (1 - u) <= val bound).
    { rewrite Vb. assert (Rabs (rnd (val in_sphere_epsilon * val size_limit) - val in_sphere_epsilon * val size_limit) <= u * Rabs (val in_sphere_epsilon * val size_limit)).
      { apply (round_step 7); [lia |].
        replace (-52 * 7)%Z with (-99 + (-265))%Z by lia. apply multiple_mult.
        - rewrite Ve. eexists. reflexivity.
        - apply (multiple_weaken (-52 * deg size_ex)); [vm_compute; discriminate | exact Ms]. }
      rewrite (Rabs_pos_eq (val in_sphere_epsilon * val size_limit)) in H by (apply Rmult_le_pos; lra).
      apply Rabs_le_inv in H. lra. }
    assert (Hb' : L * (9 / 10 ^ 15 * (1 - 12 * u) * (1 - u)) <= val bound).
    { eapply Rle_trans; [| exact Hb].
      assert (0 <= 1 - 12 * u /\ 0 <= 1 - u) as [U1 U2] by (rewrite u_eq; lra).
      replace (L * (9 / 10 ^ 15 * (1 - 12 * u) * (1 - u))) with (9 / 10 ^ 15 * (L * (1 - 12 * u)) * (1 - u)) by ring.
      apply Rmult_le_compat_r; [exact U2 |]. apply Rmult_le_compat; [lra | apply Rmult_le_pos; lra | apply Ve' | apply Sb]. }
    assert (K : 13 * u < 9 / 10 ^ 15 * (1 - 12 * u) * (1 - u)) by (rewrite u_eq; cbn [pow]; lra).
    repeat split.
    - exact Fx.
    - exact Fs.
    - exact Fb.
    - lra.
    - lra.
    - exact L0.
    - eapply Rle_trans; [| exact Hb']. apply Rmult_le_compat_l; lra.
    - assert (A : Rabs X <= L) by (rewrite <- A1; apply evA_ge). rewrite H in A. pose proof (Rabs_pos X) as B.
      destruct (Req_dec X 0) as [C | C]; [exact C |]. apply Rabs_no_R0 in C. lra.
    - assert (A : Rabs X <= L) by (rewrite <- A1; apply evA_ge). rewrite H in A, Ex. rewrite Rmult_0_l in Ex.
      apply Rabs_le_inv in A. apply Rabs_le_inv in Ex. lra.
    - intro Lp. eapply Rlt_le_trans; [| exact Hb']. apply Rmult_lt_compat_l; lra.
  Qed.

  (** What the test answers is right. *)
  Lemma filter_right : exists a, bind (try_sign x bound) (fun s => Value (is_positive s)) = a /\
    match a with Value true => 0 < X | Value false => X < 0 \/ (X = 0 /\ L = 0) | Imprecise => Rabs (val x) < val bound | Panics => False end.
  Proof.
    destruct filter_facts as (Fx & Fs & Fb & Ex & Es & L0 & B1 & Z & B2). eexists; split; [reflexivity |].
    destruct (try_sign_val x bound Fx Fb) as [[H ->] | [H ->]]; cbn [bind]; [exact H |].
    pose proof u_pos as U. apply Rabs_le_inv in Ex.
    destruct (fsign_val x Fx) as [[S ->] | [[S ->] | [S ->]]]; cbn [bind is_positive].
    - destruct (Req_dec L 0) as [Z0 | NZ]; [destruct (Z Z0); lra |].
      rewrite Rabs_pos_eq in H by lra. assert (LP : 0 < L) by lra. specialize (B2 LP). nra.
    - left. destruct (Req_dec L 0) as [Z0 | NZ]; [destruct (Z Z0); lra |].
      rewrite Rabs_left in H by lra. assert (LP : 0 < L) by lra. specialize (B2 LP). nra.
    - right. destruct (Req_dec L 0) as [Z0 | NZ]; [split; [apply (Z Z0) | exact Z0] |].
      exfalso. assert (LP : 0 < L) by lra. specialize (B2 LP). rewrite S, Rabs_R0 in H. nra.
  Qed.
End Filter.

(** ** Exact values *)
Fixpoint evQ (s : nat -> Q) (a : ex) : Q :=
  match a with V i => s i | Add a b => evQ s a + evQ s b | Sub a b => evQ s a - evQ s b | Mul a b => evQ s a * evQ s b | Abs a => Qabs (evQ s a) end%Q.

Lemma Q2R_Qabs q : Q2R (Qabs q) = Rabs (Q2R q).
Proof.
  apply Qabs_case; intro H; apply Qle_Rle in H; rewrite RMicromega.Q2R_0 in H.
  - rewrite Rabs_pos_eq by exact H. reflexivity.
  - rewrite Q2R_opp, Rabs_left1 by exact H. reflexivity.
Qed.

Lemma evQ_evR s a : evR (fun i => Q2R (s i)) a = Q2R (evQ s a).
Proof.
  induction a as [i | a IHa b IHb | a IHa b IHb | a IHa b IHb | a IHa]; cbn [evR evQ]; rewrite ?Q2R_plus, ?Q2R_minus, ?Q2R_mult; try congruence.
  rewrite IHa. symmetry. apply Q2R_Qabs.
Qed.

Lemma evR_ext s s' a : (forall i, s i = s' i) -> evR s a = evR s' a.
Proof. intro H. induction a; cbn [evR]; congruence. Qed.

Lemma Q2R_pos q : (0 < q)%Q <-> 0 < Q2R q.
Proof. split; intro H; [apply Qlt_Rlt in H; rewrite RMicromega.Q2R_0 in H; exact H | apply Rlt_Qlt; rewrite RMicromega.Q2R_0; exact H]. Qed.
Lemma Q2R_0 : Q2R 0 = 0.
Proof. apply RMicromega.Q2R_0. Qed.
Lemma Q2R_neg q : (q < 0)%Q <-> Q2R q < 0.
Proof. split; intro H; [apply Qlt_Rlt in H; rewrite Q2R_0 in H; exact H | apply Rlt_Qlt; rewrite Q2R_0; exact H]. Qed.
Lemma Q2R_zero q : (q == 0)%Q <-> Q2R q = 0.
Proof. split; intro H; [apply Qeq_eqR in H; rewrite Q2R_0 in H; exact H | apply eqR_Qeq; rewrite Q2R_0; exact H]. Qed.

Lemma unit_of x q : represents x q -> (1 <= q <= 2)%Q -> unit x.
Proof.
  intros (F & E) (H1 & H2). split; [exact F |]. change (val x) with (B2R x). rewrite E.
  apply Qle_Rle in H1. apply Qle_Rle in H2. replace (Q2R 1) with 1 in H1 by (unfold Q2R; cbn; lra).
  replace (Q2R 2) with 2 in H2 by (unfold Q2R; cbn; lra). lra.
Qed.

Definition diffs (t : ftetrahedron) (p : fpoint3) : list f64 :=
  with_differences (fun ax ay az bx by_ bz cx cy cz dx dy dz => [ax; ay; az; bx; by_; bz; cx; cy; cz; dx; dy; dz]) t p.
Definition diffsQ (t : tetrahedron) (p : point3) : list Q :=
  flat_map (fun a => [x3 a - x3 p; y3 a - y3 p; z3 a - z3 p]%Q) [ttp1 t; ttp2 t; ttp3 t; ttp4 t].

Lemma diff_ok x y q q' : represents x q -> represents y q' -> (1 <= q <= 2)%Q -> (1 <= q' <= 2)%Q ->
  fin (sub x y) /\ val (sub x y) = Q2R (q - q') /\ multiple (-52) (val (sub x y)) /\ Rabs (val (sub x y)) <= 1.
Proof.
  intros Hx Hy Bx By. destruct (unit_sub x y (unit_of _ _ Hx Bx) (unit_of _ _ Hy By)) as (F & E & M & L).
  rewrite E. repeat split; try assumption. rewrite Q2R_minus. destruct Hx as (_ & Ex), Hy as (_ & Ey).
  unfold val. rewrite Ex, Ey. reflexivity.
Qed.

Lemma diffs_ok t p T P : represents_tetra t T -> represents3 p P -> unit_tetra T -> unit_box P ->
  forall i, let d := nth i (diffs t p) zero in fin d /\ val d = Q2R (nth i (diffsQ T P) 0%Q) /\ multiple (-52) (val d) /\ Rabs (val d) <= 1.
Proof.
  intros (H1 & H2 & H3 & H4) HP (U1 & U2 & U3 & U4) UP i.
  destruct H1 as (? & ? & ?), H2 as (? & ? & ?), H3 as (? & ? & ?), H4 as (? & ? & ?), HP as (? & ? & ?).
  destruct U1 as (? & ? & ?), U2 as (? & ? & ?), U3 as (? & ? & ?), U4 as (? & ? & ?), UP as (? & ? & ?).
  do 12 (destruct i as [| i]; [apply diff_ok; assumption |]).
  assert (E : nth (12 + i) (diffs t p) zero = zero) by (destruct i; reflexivity).
  assert (E' : nth (12 + i) (diffsQ T P) 0%Q = 0%Q) by (destruct i; reflexivity).
  change (S (S (S (S (S (S (S (S (S (S (S (S i)))))))))))) with (12 + i)%nat. cbv zeta. rewrite E, E'.
  split; [reflexivity |]. unfold val. cbn [B2R zero]. rewrite Q2R_0. split; [reflexivity |]. split; [exists 0%Z; lra |]. rewrite Rabs_R0. lra.
Qed.

Lemma value_model t p : with_differences in_sphere_value t p = evF (fun i => nth i (diffs t p) zero) value_ex.
Proof. reflexivity. Qed.
Lemma size_model t p : with_differences in_sphere_size t p = evF (fun i => nth i (diffs t p) zero) size_ex.
Proof. reflexivity. Qed.

Lemma value_exact T P o : circumscribed3 T o ->
  (evQ (fun i => nth i (diffsQ T P) 0) value_ex == volume6 T * (dist2_3 o (ttp1 T) - dist2_3 o P))%Q.
Proof.
  intro HO. assert (E := Geometry_Proofs.in_sphere_value T o P HO).
  destruct T as [[ax ay az] [bx by_ bz] [cx cy cz] [dx dy dz]], P as [ex ey ez]. unfold norm2 in E. cbn [ttp1 ttp2 ttp3 ttp4 x3 y3 z3] in E.
  rewrite <- det5_shift in E.
  assert (F := float_value (ax - ex) (ay - ey) (az - ez) (bx - ex) (by_ - ey) (bz - ez) (cx - ex) (cy - ey) (cz - ez) (dx - ex) (dy - ey) (dz - ez)).
  cbv zeta in F. rewrite E in F.
  transitivity (- (volume6 (TT (P3 ax ay az) (P3 bx by_ bz) (P3 cx cy cz) (P3 dx dy dz)) * (dist2_3 o (P3 ex ey ez) - dist2_3 o (P3 ax ay az))))%Q.
  - rewrite <- F. reflexivity.
  - cbn [ttp1]. ring.
Qed.

Lemma nonneg_sum a b : 0 <= a -> 0 <= b -> a + b = 0 -> a = 0 /\ b = 0.
Proof. lra. Qed.

Lemma sq3_zero a b c : a * a + b * b + c * c = 0 -> a = 0 /\ b = 0 /\ c = 0.
Proof. intro H. assert (a * a = 0 /\ b * b = 0 /\ c * c = 0) as (? & ? & ?) by (repeat split; nra). repeat split; nra. Qed.

Lemma det_zero s a b c d e f g h i : Rabs s * (Rabs a + Rabs b) + Rabs c * (Rabs d + Rabs e) + Rabs f * (Rabs g + Rabs h) = 0 ->
  (i = 1 \/ i = -1) -> s * (a - b) + i * (c * (d - e)) + f * (g - h) = 0.
Proof.
  intros H Hi. pose proof (Rabs_pos s). pose proof (Rabs_pos a). pose proof (Rabs_pos b). pose proof (Rabs_pos c). pose proof (Rabs_pos d).
  pose proof (Rabs_pos e). pose proof (Rabs_pos f). pose proof (Rabs_pos g). pose proof (Rabs_pos h).
  assert (A : Rabs s * (Rabs a + Rabs b) = 0 /\ Rabs c * (Rabs d + Rabs e) = 0 /\ Rabs f * (Rabs g + Rabs h) = 0).
  { assert (0 <= Rabs s * (Rabs a + Rabs b)) by (apply Rmult_le_pos; lra).
    assert (0 <= Rabs c * (Rabs d + Rabs e)) by (apply Rmult_le_pos; lra).
    assert (0 <= Rabs f * (Rabs g + Rabs h)) by (apply Rmult_le_pos; lra). lra. }
  assert (K : forall x y z, Rabs x * (Rabs y + Rabs z) = 0 -> x * (y - z) = 0).
  { intros x y z E. apply Rmult_integral in E. destruct E as [E | E].
    - destruct (Req_dec x 0) as [-> | N]; [lra | apply Rabs_no_R0 in N; contradiction].
    - pose proof (Rabs_pos y). pose proof (Rabs_pos z). assert (Y : Rabs y = 0) by lra. assert (Z : Rabs z = 0) by lra.
      destruct (Req_dec y 0) as [-> | N]; [| apply Rabs_no_R0 in N; contradiction].
      destruct (Req_dec z 0) as [-> | N]; [lra | apply Rabs_no_R0 in N; contradiction]. }
  destruct A as (A1 & A2 & A3). apply K in A1, A2, A3. destruct Hi as [-> | ->]; nra.
Qed.

Lemma size_zero ax ay az bx by_ bz cx cy cz dx dy dz :
  evR (fun i => nth i [ax; ay; az; bx; by_; bz; cx; cy; cz; dx; dy; dz] 0) size_ex = 0 ->
  (ax = 0 /\ ay = 0 /\ az = 0) \/ (bx = 0 /\ by_ = 0 /\ bz = 0) \/ (cx = 0 /\ cy = 0 /\ cz = 0) \/ (dx = 0 /\ dy = 0 /\ dz = 0)
  \/ (bz * (cx * dy - dx * cy) - cz * (bx * dy - dx * by_) + dz * (bx * cy - cx * by_)
      - (cz * (dx * ay - ax * dy) + dz * (ax * cy - cx * ay) + az * (cx * dy - dx * cy))
      + (dz * (ax * by_ - bx * ay) + az * (bx * dy - dx * by_) + bz * (dx * ay - ax * dy))
      - (az * (bx * cy - cx * by_) - bz * (ax * cy - cx * ay) + cz * (ax * by_ - bx * ay)) = 0).
Proof.
  unfold size_ex, sq3, vax, vay, vaz, vbx, vby, vbz, vcx, vcy, vcz, vdx, vdy, vdz. cbv zeta. cbn [evR nth].
  assert (S2 : forall a b c, 0 <= a * a + b * b + c * c) by (intros; nra).
  assert (S3 : forall a b c d e f g h i : R, 0 <= Rabs a * (Rabs b + Rabs c) + Rabs d * (Rabs e + Rabs f) + Rabs g * (Rabs h + Rabs i)).
  { intros. pose proof (Rabs_pos a). pose proof (Rabs_pos b). pose proof (Rabs_pos c). pose proof (Rabs_pos d). pose proof (Rabs_pos e).
    pose proof (Rabs_pos f). pose proof (Rabs_pos g). pose proof (Rabs_pos h). pose proof (Rabs_pos i).
    repeat apply Rplus_le_le_0_compat; apply Rmult_le_pos; lra. }
  intro H.
  match type of H with ?c * ?x + ?d * ?y + (?a * ?z + ?b * ?w) = 0 =>
    assert (P1 : 0 <= c * x) by (apply Rmult_le_pos; [apply S2 | apply S3]);
    assert (P2 : 0 <= d * y) by (apply Rmult_le_pos; [apply S2 | apply S3]);
    assert (P3 : 0 <= a * z) by (apply Rmult_le_pos; [apply S2 | apply S3]);
    assert (P4 : 0 <= b * w) by (apply Rmult_le_pos; [apply S2 | apply S3]);
    assert (E1 : c * x = 0) by lra; assert (E2 : d * y = 0) by lra; assert (E3 : a * z = 0) by lra; assert (E4 : b * w = 0) by lra
  end.
  clear H P1 P2 P3 P4. apply Rmult_integral in E1, E2, E3, E4.
  destruct E3 as [E3 | E3]; [left; apply sq3_zero, E3 |].
  destruct E4 as [E4 | E4]; [right; left; apply sq3_zero, E4 |].
  destruct E1 as [E1 | E1]; [right; right; left; apply sq3_zero, E1 |].
  destruct E2 as [E2 | E2]; [right; right; right; left; apply sq3_zero, E2 |].
  right; right; right; right.
  apply (fun H => det_zero _ _ _ _ _ _ _ _ _ 1 H (or_introl eq_refl)) in E1.
  apply (fun H => det_zero _ _ _ _ _ _ _ _ _ (-1) H (or_intror eq_refl)) in E2.
  apply (fun H => det_zero _ _ _ _ _ _ _ _ _ (-1) H (or_intror eq_refl)) in E3.
  apply (fun H => det_zero _ _ _ _ _ _ _ _ _ 1 H (or_introl eq_refl)) in E4.
  nra.
Qed.

(** ** The filter *)
Lemma nth_Q2R l i : nth i (map Q2R l) 0 = Q2R (nth i l 0%Q).
Proof. rewrite <- Q2R_0 at 1. apply map_nth. Qed.

Lemma filter_answer t p T P : represents_tetra t T -> represents3 p P -> unit_tetra T -> unit_box P ->
  match circumcircle_contains_float t p with
  | Value true => (0 < evQ (fun i => nth i (diffsQ T P) 0) value_ex)%Q
  | Value false => (evQ (fun i => nth i (diffsQ T P) 0) value_ex < 0)%Q \/ a_corner T P \/ (volume6 T == 0)%Q
  | Imprecise => (Qabs (evQ (fun i => nth i (diffsQ T P) 0) value_ex) < 1 # 2 ^ 39)%Q
  | Panics => False
  end.
Proof.
  intros HT HP UT UP. set (s := fun i => nth i (diffs t p) zero).
  assert (D := diffs_ok t p T P HT HP UT UP).
  assert (Hf : forall i, fin (s i)) by (intro i; apply (D i)).
  assert (Hm : forall i, multiple (-52) (val (s i))) by (intro i; apply (D i)).
  assert (Hl : forall i, Rabs (val (s i)) <= 1) by (intro i; apply (D i)).
  assert (EX : evR (r s) value_ex = Q2R (evQ (fun i => nth i (diffsQ T P) 0%Q) value_ex)).
  { rewrite <- evQ_evR. apply evR_ext. intro i. apply (D i). }
  assert (EL : evR (r s) size_ex = evR (fun i => nth i (map Q2R (diffsQ T P)) 0) size_ex).
  { apply evR_ext. intro i. rewrite nth_Q2R. apply (D i). }
  destruct (filter_right s Hf Hm Hl) as (a & Ea & Ha).
  unfold circumcircle_contains_float. cbv zeta. rewrite value_model, size_model. fold s. rewrite Ea. clear Ea.
  destruct a as [[|] | |]; [| | | exact Ha].
  - apply Q2R_pos. rewrite <- EX. exact Ha.
  - destruct Ha as [Ha | [_ Ha]]; [left; apply Q2R_neg; rewrite <- EX; exact Ha |]. right.
    rewrite EL in Ha. destruct T as [[ax ay az] [bx by_ bz] [cx cy cz] [dx dy dz]], P as [ex ey ez].
    unfold diffsQ in Ha. cbn [flat_map app map x3 y3 z3 ttp1 ttp2 ttp3 ttp4] in Ha. apply size_zero in Ha.
    unfold a_corner, same_point3. cbn [x3 y3 z3 ttp1 ttp2 ttp3 ttp4].
    rewrite !Q2R_minus in Ha.
    assert (K : forall a e : Q, Q2R a - Q2R e = 0 -> (e == a)%Q) by (intros a e H; apply eqR_Qeq; lra).
    destruct Ha as [(A & B & C) | [(A & B & C) | [(A & B & C) | [(A & B & C) | A]]]];
      [left; left | left; right; left | left; right; right; left | left; right; right; right |]; [apply K in A, B, C; auto ..|].
    right. apply Q2R_zero. unfold volume6, triple. cbn [x3 y3 z3 ttp1 ttp2 ttp3 ttp4].
    repeat rewrite ?Q2R_plus, ?Q2R_minus, ?Q2R_mult. rewrite <- A. ring.
  - destruct (filter_facts s Hf Hm Hl) as (_ & Fs & Fb & E1 & E2 & L0 & _ & _ & _).
    set (xx := evF s value_ex) in *. set (sz := evF s size_ex) in *. set (L := evR (r s) size_ex) in *. set (X := evR (r s) value_ex) in *.
    assert (Lb : L <= 72).
    { unfold L. rewrite <- (proj2 (size_is_evA (r s))). eapply Rle_trans; [apply (evA_size _ 1); [lia | exact Hl] |]. apply IZR_le. vm_compute. discriminate. }
    destruct eps_val as (Fe & Ve).
    assert (Ve' : 0 <= val in_sphere_epsilon <= 11 / 10 ^ 15) by (rewrite Ve; cbn; lra).
    assert (Sz : 0 <= val sz <= 73). { apply Rabs_le_inv in E2. rewrite u_eq in E2. lra. }
    assert (PB : val in_sphere_epsilon * val sz <= 11 / 10 ^ 15 * 73) by (apply Rmult_le_compat; lra).
    assert (P0 : 0 <= val in_sphere_epsilon * val sz) by (apply Rmult_le_pos; lra).
    assert (Hb : val (mul in_sphere_epsilon sz) <= 11 / 10 ^ 15 * 73 + bpow radix2 (-94)).
    { assert (Q0 : Rabs (val in_sphere_epsilon * val sz) <= bpow radix2 (-40)).
      { rewrite Rabs_pos_eq by exact P0. eapply Rle_trans; [exact PB |]. cbn. lra. }
      destruct (mul_val in_sphere_epsilon sz Fe Fs) as (_ & Eb).
      { eapply Rle_trans; [exact Q0 | apply bpow_le; lia]. }
      pose proof (rnd_err _ (-40) ltac:(lia) Q0) as RE. apply Rabs_le_inv in RE. rewrite Eb. change (-40 - 54)%Z with (-94)%Z in RE. lra. }
    apply Rlt_Qlt. rewrite Q2R_Qabs, <- EX.
    apply Rle_lt_trans with (Rabs (val xx) + L * (12 * u)).
    { replace X with (val xx - (val xx - X)) by ring. eapply Rle_trans; [apply Rabs_triang |]. rewrite Rabs_Ropp. lra. }
    assert (L * (12 * u) <= 72 * (12 * u)) by (apply Rmult_le_compat_r; [rewrite u_eq; lra | exact Lb]).
    replace (Q2R (1 # 2 ^ 39)) with (/ IZR (2 ^ 39)) by (unfold Q2R; cbn; lra).
    eapply Rlt_le_trans; [apply Rplus_lt_le_compat; [exact Ha | exact H] |]. rewrite u_eq. cbn in Hb |- *. lra.
Qed.

Theorem filter_ok t p T P o : represents_tetra t T -> represents3 p P -> unit_tetra T -> unit_box P -> (0 < volume6 T)%Q -> circumscribed3 T o ->
  match circumcircle_contains_float t p with
  | Value true => (dist2_3 o P < dist2_3 o (ttp1 T))%Q
  | Value false => (dist2_3 o (ttp1 T) < dist2_3 o P)%Q \/ a_corner T P
  | Imprecise => (Qabs (volume6 T * (dist2_3 o P - dist2_3 o (ttp1 T))) < 1 # 2 ^ 39)%Q
  | Panics => False
  end.
Proof.
  intros HT HP UT UP HV HO. assert (A := filter_answer t p T P HT HP UT UP). assert (E := value_exact T P o HO).
  set (w := evQ _ value_ex) in *. destruct (circumcircle_contains_float t p) as [[|] | |]; [| | | exact A].
  - rewrite E in A. apply Qnot_le_lt. intro C.
    assert (dist2_3 o (ttp1 T) - dist2_3 o P <= 0)%Q by (setoid_replace 0%Q with (dist2_3 o P - dist2_3 o P)%Q by ring; apply Qplus_le_compat; [exact C | apply Qle_refl]).
    assert (volume6 T * (dist2_3 o (ttp1 T) - dist2_3 o P) <= 0)%Q; [| apply (Qlt_not_le _ _ A); assumption].
    setoid_replace 0%Q with (volume6 T * 0)%Q by ring. rewrite !(Qmult_comm (volume6 T)). apply Qmult_le_compat_r; [assumption | apply Qlt_le_weak, HV].
  - destruct A as [A | [A | A]]; [left | right; exact A | exfalso; rewrite A in HV; discriminate HV].
    rewrite E in A. apply Qnot_le_lt. intro C.
    assert (0 <= dist2_3 o (ttp1 T) - dist2_3 o P)%Q by (setoid_replace 0%Q with (dist2_3 o P - dist2_3 o P)%Q by ring; apply Qplus_le_compat; [exact C | apply Qle_refl]).
    apply (Qlt_not_le _ _ A). apply Qmult_le_0_compat; [apply Qlt_le_weak, HV | assumption].
  - rewrite E in A. setoid_replace (volume6 T * (dist2_3 o P - dist2_3 o (ttp1 T)))%Q with (- (volume6 T * (dist2_3 o (ttp1 T) - dist2_3 o P)))%Q by ring.
    rewrite Qabs_opp. exact A.
Qed.

(** ** The branch with lifted entries *)
Lemma represents_lift x q : represents x q -> exists q', to_Q x = Some q' /\ (q' == q)%Q.
Proof.
  intros (F & E). assert (exists q', to_Q x = Some q') as [q' H] by (destruct x; try discriminate F; eexists; reflexivity).
  exists q'. split; [exact H |]. destruct (to_Q_val _ _ H) as (_ & V). apply eqR_Qeq. rewrite <- V. exact E.
Qed.

Lemma fin_lift x : fin x -> exists q, to_Q x = Some q /\ val x = Q2R q.
Proof.
  intro F. assert (exists q', to_Q x = Some q') as [q' H] by (destruct x; try discriminate F; eexists; reflexivity).
  exists q'. split; [exact H |]. apply (to_Q_val _ _ H).
Qed.

Lemma norm_ok p P : represents3 p P -> unit_box P ->
  exists x y z n, lift_row p = Value (1%Q, (x, (y, z, n))) /\ (x == x3 P)%Q /\ (y == y3 P)%Q /\ (z == z3 P)%Q
    /\ Rabs (Q2R n - Q2R (norm2 P)) <= 12 * (4 * u).
Proof.
  intros HP (B1 & B2 & B3). assert (HP' := HP). destruct HP' as (R1 & R2 & R3). cbn [x3 y3 z3] in B1, B2, B3.
  destruct (represents_lift _ _ R1) as (x & X1 & X2). destruct (represents_lift _ _ R2) as (y & Y1 & Y2). destruct (represents_lift _ _ R3) as (z & Z1 & Z2).
  assert (U1 := unit_of _ _ R1 B1). assert (U2 := unit_of _ _ R2 B2). assert (U3 := unit_of _ _ R3 B3).
  set (s := fun i => nth i [fx p; fy p] (fz p)).
  assert (US : forall i, unit (s i)) by (intros [| [| [| i]]]; assumption).
  destruct (error s 2 (fun i => proj1 (US i)) (fun i => unit_multiple _ (US i)) ltac:(lia)) with (a := sq3 (V 0) (V 1) (V 2)) as (F & _ & E).
  - intro i. destruct (US i) as (_ & H). rewrite Rabs_pos_eq; lra.
  - vm_compute. discriminate.
  - vm_compute. lia.
  - vm_compute. discriminate.
  - change (evF s (sq3 (V 0) (V 1) (V 2))) with (fnorm2 p) in F, E. change (cnt (sq3 (V 0) (V 1) (V 2))) with 3%nat in E.
    destruct (fin_lift _ F) as (n & N1 & N2).
    exists x, y, z, n. unfold lift_row, lift_point. rewrite X1, Y1, Z1, N1. cbn [bind unwrap]. split; [reflexivity |].
    split; [exact X2 |]. split; [exact Y2 |]. split; [exact Z2 |].
    replace (evR (r s) (sq3 (V 0) (V 1) (V 2))) with (Q2R (norm2 P)) in E.
    + rewrite <- N2. eapply Rle_trans; [exact E |].
      assert (A : evA (r s) (sq3 (V 0) (V 1) (V 2)) <= 12).
      { eapply Rle_trans; [apply (evA_size _ 2); [lia |] | apply IZR_le; vm_compute; discriminate].
        intro i. unfold r. destruct (US i) as (_ & H). rewrite Rabs_pos_eq; lra. }
      apply Rmult_le_compat; [apply evA_pos | | exact A |].
      * pose proof (pow1u_ge_1 3). lra.
      * rewrite u_eq. cbn [pow]. lra.
    + unfold norm2. cbn [sq3 evR r s nth]. rewrite !Q2R_plus. rewrite (Qeq_eqR _ _ (Qsq (x3 P))), (Qeq_eqR _ _ (Qsq (y3 P))), (Qeq_eqR _ _ (Qsq (z3 P))), !Q2R_mult.
      destruct R1 as (_ & <-), R2 as (_ & <-), R3 as (_ & <-). reflexivity.
Qed.

Lemma det5_linear ax ay az an bx by_ bz bn cx cy cz cn dx dy dz dn ex ey ez en am bm cm dm em :
  (determinant5x5 (1, (ax, (ay, az, an))) (1, (bx, (by_, bz, bn))) (1, (cx, (cy, cz, cn))) (1, (dx, (dy, dz, dn))) (1, (ex, (ey, ez, en)))
   == determinant5x5 (1, (ax, (ay, az, am))) (1, (bx, (by_, bz, bm))) (1, (cx, (cy, cz, cm))) (1, (dx, (dy, dz, dm))) (1, (ex, (ey, ez, em)))
     + ((en - em) * vol ax ay az bx by_ bz cx cy cz dx dy dz - (dn - dm) * vol ax ay az bx by_ bz cx cy cz ex ey ez
     + (cn - cm) * vol ax ay az bx by_ bz dx dy dz ex ey ez - (bn - bm) * vol ax ay az cx cy cz dx dy dz ex ey ez
     + (an - am) * vol bx by_ bz cx cy cz dx dy dz ex ey ez))%Q.
Proof. unfold determinant5x5, determinant4x4, determinant3x3, vol, triple. cbn [fst snd]. ring. Qed.

Lemma le1_mul a b : Rabs a <= 1 -> Rabs b <= 1 -> Rabs (a * b) <= 1.
Proof. intros. rewrite Rabs_mult. replace 1 with (1 * 1) by lra. apply Rmult_le_compat; auto using Rabs_pos. Qed.

Lemma triple_le a b c d e f g h i : Rabs a <= 1 -> Rabs b <= 1 -> Rabs c <= 1 -> Rabs d <= 1 -> Rabs e <= 1 -> Rabs f <= 1 -> Rabs g <= 1 -> Rabs h <= 1 -> Rabs i <= 1 ->
  Rabs (a * (e * i - f * h) - b * (d * i - f * g) + c * (d * h - e * g)) <= 6.
Proof.
  intros Ha Hb Hc Hd He Hf Hg Hh Hi.
  pose proof (le1_mul _ _ Ha (le1_mul _ _ He Hi)) as K1. pose proof (le1_mul _ _ Ha (le1_mul _ _ Hf Hh)) as K2.
  pose proof (le1_mul _ _ Hb (le1_mul _ _ Hd Hi)) as K3. pose proof (le1_mul _ _ Hb (le1_mul _ _ Hf Hg)) as K4.
  pose proof (le1_mul _ _ Hc (le1_mul _ _ Hd Hh)) as K5. pose proof (le1_mul _ _ Hc (le1_mul _ _ He Hg)) as K6.
  apply Rabs_le_inv in K1, K2, K3, K4, K5, K6. apply Rabs_le. nra.
Qed.

Lemma vol_le ax ay az bx by_ bz cx cy cz dx dy dz :
  unit_box (P3 ax ay az) -> unit_box (P3 bx by_ bz) -> unit_box (P3 cx cy cz) -> unit_box (P3 dx dy dz) ->
  Rabs (Q2R (vol ax ay az bx by_ bz cx cy cz dx dy dz)) <= 6.
Proof.
  unfold unit_box, in_box3. cbn [x3 y3 z3]. intros.
  assert (K : forall q q', (1 <= q <= 2)%Q -> (1 <= q' <= 2)%Q -> Rabs (Q2R (q - q')) <= 1).
  { intros q q' (A & B) (C & D). apply Qle_Rle in A, B, C, D. replace (Q2R 1) with 1 in * by (unfold Q2R; cbn; lra).
    replace (Q2R 2) with 2 in * by (unfold Q2R; cbn; lra). rewrite Q2R_minus. apply Rabs_le. lra. }
  unfold vol, triple. rewrite !Q2R_plus, !Q2R_minus, !Q2R_mult, !(Q2R_minus (_ * _)), !Q2R_mult. apply triple_le; apply K; tauto.
Qed.

Lemma lifted_det t p T P : represents_tetra t T -> represents3 p P -> unit_tetra T -> unit_box P ->
  exists d, in_sphere_determinant t p = Value d /\
    Rabs (Q2R d - Q2R (determinant5x5 (1, (x3 (ttp1 T), (y3 (ttp1 T), z3 (ttp1 T), norm2 (ttp1 T)))) (1, (x3 (ttp2 T), (y3 (ttp2 T), z3 (ttp2 T), norm2 (ttp2 T))))
      (1, (x3 (ttp3 T), (y3 (ttp3 T), z3 (ttp3 T), norm2 (ttp3 T)))) (1, (x3 (ttp4 T), (y3 (ttp4 T), z3 (ttp4 T), norm2 (ttp4 T)))) (1, (x3 P, (y3 P, z3 P, norm2 P))))%Q) <= 1440 * u.
Proof.
  intros (R1 & R2 & R3 & R4) RP (U1 & U2 & U3 & U4) UP.
  destruct (norm_ok _ _ R1 U1) as (ax & ay & az & an & La & Ax & Ay & Az & An).
  destruct (norm_ok _ _ R2 U2) as (bx & by_ & bz & bn & Lb & Bx & By & Bz & Bn).
  destruct (norm_ok _ _ R3 U3) as (cx & cy & cz & cn & Lc & Cx & Cy & Cz & Cn).
  destruct (norm_ok _ _ R4 U4) as (dx & dy & dz & dn & Ld & Dx & Dy & Dz & Dn).
  destruct (norm_ok _ _ RP UP) as (ex & ey & ez & en & Le & Ex & Ey & Ez & En).
  exists (determinant5x5 (1, (ax, (ay, az, an))) (1, (bx, (by_, bz, bn))) (1, (cx, (cy, cz, cn))) (1, (dx, (dy, dz, dn))) (1, (ex, (ey, ez, en))))%Q.
  split. { unfold in_sphere_determinant. rewrite La, Lb, Lc, Ld, Le. reflexivity. }
  destruct T as [[a1 a2 a3] [b1 b2 b3] [c1 c2 c3] [d1 d2 d3]], P as [e1 e2 e3]. cbn [ttp1 ttp2 ttp3 ttp4 x3 y3 z3] in *.
  set (na := norm2 (P3 a1 a2 a3)) in *. set (nb := norm2 (P3 b1 b2 b3)) in *. set (nc := norm2 (P3 c1 c2 c3)) in *. set (nd := norm2 (P3 d1 d2 d3)) in *. set (ne := norm2 (P3 e1 e2 e3)) in *.
  assert (E := det5_linear a1 a2 a3 an b1 b2 b3 bn c1 c2 c3 cn d1 d2 d3 dn e1 e2 e3 en na nb nc nd ne).
  assert (E0 : (determinant5x5 (1, (ax, (ay, az, an))) (1, (bx, (by_, bz, bn))) (1, (cx, (cy, cz, cn))) (1, (dx, (dy, dz, dn))) (1, (ex, (ey, ez, en)))
    == determinant5x5 (1, (a1, (a2, a3, an))) (1, (b1, (b2, b3, bn))) (1, (c1, (c2, c3, cn))) (1, (d1, (d2, d3, dn))) (1, (e1, (e2, e3, en))))%Q).
  { unfold determinant5x5, determinant4x4, determinant3x3. cbn [fst snd]. rewrite Ax, Ay, Az, Bx, By, Bz, Cx, Cy, Cz, Dx, Dy, Dz, Ex, Ey, Ez. reflexivity. }
  rewrite (Qeq_eqR _ _ E0), (Qeq_eqR _ _ E), Q2R_plus. clear E E0.
  set (D0 := Q2R (determinant5x5 _ _ _ _ _)).
  pose proof (vol_le a1 a2 a3 b1 b2 b3 c1 c2 c3 d1 d2 d3 U1 U2 U3 U4) as V1. pose proof (vol_le a1 a2 a3 b1 b2 b3 c1 c2 c3 e1 e2 e3 U1 U2 U3 UP) as V2.
  pose proof (vol_le a1 a2 a3 b1 b2 b3 d1 d2 d3 e1 e2 e3 U1 U2 U4 UP) as V3. pose proof (vol_le a1 a2 a3 c1 c2 c3 d1 d2 d3 e1 e2 e3 U1 U3 U4 UP) as V4.
  pose proof (vol_le b1 b2 b3 c1 c2 c3 d1 d2 d3 e1 e2 e3 U2 U3 U4 UP) as V5.
  repeat rewrite ?Q2R_plus, ?(Q2R_minus (_ * _)), ?(Q2R_minus (_ - _ * _)), ?(Q2R_minus (_ + _ * _)), ?Q2R_mult.
  rewrite !(Q2R_minus an), !(Q2R_minus bn), !(Q2R_minus cn), !(Q2R_minus dn), !(Q2R_minus en).
  assert (K : forall x v, Rabs x <= 12 * (4 * u) -> Rabs v <= 6 -> - (288 * u) <= x * v <= 288 * u).
  { intros x v Hx Hv. apply Rabs_le_inv. rewrite Rabs_mult. replace (288 * u) with (12 * (4 * u) * 6) by ring. apply Rmult_le_compat; auto using Rabs_pos. }
  pose proof (K _ _ En V1). pose proof (K _ _ Dn V2). pose proof (K _ _ Cn V3). pose proof (K _ _ Bn V4). pose proof (K _ _ An V5).
  apply Rabs_le. lra.
Qed.

Theorem whole_ok t p T P o : represents_tetra t T -> represents3 p P -> unit_tetra T -> unit_box P -> (0 < volume6 T)%Q -> circumscribed3 T o ->
  (1 # 2 ^ 42 <= Qabs (volume6 T * (dist2_3 o P - dist2_3 o (ttp1 T))))%Q ->
  match circumcircle_contains64 t p with
  | Value true => (dist2_3 o P < dist2_3 o (ttp1 T))%Q
  | Value false => (dist2_3 o (ttp1 T) < dist2_3 o P)%Q
  | Imprecise | Panics => False
  end.
Proof.
  intros HT HP UT UP HV HO HA. assert (A := filter_ok t p T P o HT HP UT UP HV HO).
  unfold circumcircle_contains64. destruct (circumcircle_contains_float t p) as [[|] | |]; cbn [or_else]; [exact A | | | exact A].
  - destruct A as [A | A]; [exact A | exfalso]. assert (E : (dist2_3 o P == dist2_3 o (ttp1 T))%Q).
    { destruct HO as (O2 & O3 & O4). unfold dist2_3 in *. destruct A as [(-> & -> & ->) | [(-> & -> & ->) | [(-> & -> & ->) | (-> & -> & ->)]]]; [reflexivity | exact O2 | exact O3 | exact O4]. }
    setoid_replace (volume6 T * (dist2_3 o P - dist2_3 o (ttp1 T)))%Q with 0%Q in HA by (rewrite E; ring). apply (Qle_not_lt _ _ HA). reflexivity.
  - clear A. destruct (lifted_det t p T P HT HP UT UP) as (d & E & B). unfold circumcircle_contains_lifted. rewrite E. cbn [bind].
    rewrite (Qeq_eqR _ _ (Geometry_Proofs.in_sphere_value T o P HO)) in B. set (w := (volume6 T * (dist2_3 o P - dist2_3 o (ttp1 T)))%Q) in *.
    apply Qle_Rle in HA. rewrite Q2R_Qabs in HA. replace (Q2R (1 # 2 ^ 42)) with (2048 * u) in HA by (rewrite u_eq; unfold Q2R; cbn; lra).
    pose proof u_pos as U. apply Rabs_le_inv in B.
    assert (W : forall x y, (x < y -> w < 0 -> dist2_3 o P < dist2_3 o (ttp1 T))%Q) by (intros x y _ H; apply Qnot_le_lt; intro C; apply (Qlt_not_le _ _ H);
      apply Qmult_le_0_compat; [apply Qlt_le_weak, HV | apply -> Qle_minus_iff; exact C]).
    unfold Rabs in HA. destruct (Rcase_abs (Q2R w)) as [N | N].
    + assert (D : (d < 0)%Q) by (apply Q2R_neg; lra). unfold sign_of. rewrite (proj1 (Qlt_alt _ _) D). cbn.
      apply (W 0%Q 1%Q); [reflexivity |]. apply Q2R_neg. exact N.
    + assert (D : (0 < d)%Q) by (apply Q2R_pos; lra). unfold sign_of. rewrite (proj1 (Qgt_alt _ _) D). cbn.
      assert (Wp : (0 < w)%Q) by (apply Q2R_pos; lra).
      apply Qnot_le_lt. intro C. apply (Qlt_not_le _ _ Wp). unfold w.
      setoid_replace 0%Q with (volume6 T * 0)%Q by ring. rewrite !(Qmult_comm (volume6 T)). apply Qmult_le_compat_r; [| apply Qlt_le_weak, HV].
      setoid_replace 0%Q with (dist2_3 o (ttp1 T) - dist2_3 o (ttp1 T))%Q by ring. apply Qplus_le_compat; [exact C | apply Qle_refl].
Qed.
