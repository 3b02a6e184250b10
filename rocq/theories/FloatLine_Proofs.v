(** Proofs about the choice of the flip with [f64]. *)
From Coq Require Import ZArith QArith Qabs Qreals Reals Lra Lia Bool List Psatz.
From Flocq Require Import Core IEEE754.BinarySingleNaN.
From Verif Require Import Geometry_Model Geometry_Spec Geometry_Proofs GeometryTriangle_Proofs Float_Model Float_Spec Float_Proofs Float_InSphere_Proofs Float_Contains_Proofs FloatFlip_Model FloatFlip_Spec
  FloatSolve_Proofs FloatFlip_Proofs.
Import ListNotations.
Open Scope R_scope.

Lemma Q2R_Qabs q : Q2R (Qabs q) = Rabs (Q2R q).
Proof.
  destruct (Qlt_le_dec q 0) as [H | H].
  - rewrite (Qeq_eqR _ (- q)) by (apply Qabs_neg, Qlt_le_weak, H). rewrite Q2R_opp. apply Q2R_neg in H. rewrite Rabs_left by exact H. reflexivity.
  - rewrite (Qeq_eqR _ q) by (apply Qabs_pos, H). apply Qle_Rle in H. rewrite RMicromega.Q2R_0 in H. rewrite Rabs_pos_eq by exact H. reflexivity.
Qed.

Lemma clear_R k d l : clear (1 # 2 ^ k) d l -> / IZR (Zpos (2 ^ k)) <= Q2R d * Q2R d * Rabs (Q2R l).
Proof.
  intro H. unfold clear in H. apply Qle_Rle in H. rewrite !Q2R_mult, Q2R_Qabs in H. unfold Q2R at 1 in H. cbn [Qnum Qden] in H. rewrite Rmult_1_l in H. exact H.
Qed.

Lemma triangle_eps : fin triangle_epsilon /\ 0 < val triangle_epsilon.
Proof. split; [reflexivity |]. unfold val, triangle_epsilon, lit. vm_compute. lra. Qed.

(** The sign of a number that is closer to [l] than [l] is to zero. *)
Lemma try_near v l D : fin v -> 0 < D -> D * Rabs (val v - Q2R l) < D * Rabs (Q2R l) ->
  try_sign v triangle_epsilon = Imprecise \/ try_sign v triangle_epsilon = Value (sign_of l) /\ sign_of l <> Zero.
Proof.
  intros F HD H. apply Rmult_lt_reg_l in H; [| exact HD]. destruct triangle_eps as (Fe & He).
  destruct (try_sign_val v _ F Fe) as [[_ E] | [L E]]; rewrite E; [left; reflexivity | right].
  destruct (fsign_val v F) as [[S ->] | [[S ->] | [S ->]]].
  - assert (P : (0 < l)%Q). { apply Q2R_pos. destruct (Rlt_or_le 0 (Q2R l)) as [|N]; [assumption |]. rewrite (Rabs_left1 (Q2R l)) in H by exact N. apply Rabs_def2 in H. lra. }
    unfold sign_of. rewrite (proj1 (Qgt_alt _ _) P). split; [reflexivity | discriminate].
  - assert (P : (l < 0)%Q). { apply Q2R_neg. destruct (Rlt_or_le (Q2R l) 0) as [|N]; [assumption |]. rewrite (Rabs_pos_eq (Q2R l)) in H by exact N. apply Rabs_def2 in H. lra. }
    unfold sign_of. rewrite (proj1 (Qlt_alt _ _) P). split; [reflexivity | discriminate].
  - exfalso. rewrite S, Rabs_R0 in L. lra.
Qed.
Lemma nonzero_near v l : try_sign v triangle_epsilon = Imprecise \/ try_sign v triangle_epsilon = Value (sign_of l) /\ sign_of l <> Zero ->
  nonzero_sign64 v = Imprecise \/ nonzero_sign64 v = Value (sign_of l) /\ sign_of l <> Zero.
Proof. intros [E | [E N]]; unfold nonzero_sign64; rewrite E; cbn [bind]; [left; reflexivity | right]. destruct (sign_of l); [split; [reflexivity | exact N].. | contradiction]. Qed.
Lemma sign_near v l D : fin v -> 0 < D -> D * Rabs (val v - Q2R l) < D * Rabs (Q2R l) ->
  nonzero_sign64 v = Imprecise \/ nonzero_sign64 v = Value (sign_of l) /\ sign_of l <> Zero.
Proof. intros F HD H. apply nonzero_near, (try_near v l D F HD H). Qed.

(** Three signs whose numbers have the sum 1. *)
Lemma type_ok r s l1 l2 l3 : (l1 + l2 + l3 == 1)%Q ->
  nonzero_sign64 r = Imprecise \/ nonzero_sign64 r = Value (sign_of l2) /\ sign_of l2 <> Zero ->
  nonzero_sign64 s = Imprecise \/ nonzero_sign64 s = Value (sign_of l3) /\ sign_of l3 <> Zero ->
  nonzero_sign64 (sub one (add r s)) = Imprecise \/ nonzero_sign64 (sub one (add r s)) = Value (sign_of l1) /\ sign_of l1 <> Zero ->
  intersection_type64 r s = Imprecise \/ exists i, intersection_type64 r s = Value i /\ describes i l1 l2 l3.
Proof.
  intros Sum A B C. unfold intersection_type64. destruct A as [-> | [-> A]]; cbn [bind]; [left; reflexivity |]. destruct B as [-> | [-> B]]; cbn [bind]; [left; reflexivity |].
  destruct C as [-> | [-> C]]; cbn [bind]; [left; reflexivity | right]. revert A B C.
  destruct (sign_cases l2) as [[-> H2] | [[-> H2] | [-> H2]]]; destruct (sign_cases l3) as [[-> H3] | [[-> H3] | [-> H3]]]; destruct (sign_cases l1) as [[-> H1] | [[-> H1] | [-> H1]]]; intros A B C;
    try congruence; cbn [List.combine filter fst snd is_negative map]; try (eexists; split; [reflexivity |]; cbn [describes]; tauto); exfalso; Lqa.lra.
Qed.

(** ** The equations *)
Lemma ok_diff x y q q' : represents x q -> represents y q' -> (1 <= q <= 2)%Q -> (1 <= q' <= 2)%Q -> ok1 (sub x y) /\ val (sub x y) = Q2R q - Q2R q'.
Proof. intros A B C D. destruct (diff_ok x y q q' A B C D) as (F & E & _ & L). rewrite Q2R_minus in E. repeat split; assumption. Qed.

Lemma opp_ok x : ok1 x -> ok1 (Bopp x).
Proof. intros (F & L). split; [unfold fin; rewrite is_finite_Bopp; exact F | unfold val; rewrite B2R_Bopp, Rabs_Ropp; exact L]. Qed.
Lemma opp_val x : val (Bopp x) = - val x.
Proof. apply B2R_Bopp. Qed.

Lemma one_sub_ok y1 y2 l1 l2 l3 D c : fin y1 -> fin y2 -> l1 + l2 + l3 = 1 -> 0 <= D <= 6 -> forall n, 1 + Rabs (val y1) + Rabs (val y2) <= n -> n <= bpow radix2 800 ->
  D * Rabs (val y1 - l2) <= c * u * n -> D * Rabs (val y2 - l3) <= c * u * n ->
  fin (sub one (add y1 y2)) /\ D * Rabs (val (sub one (add y1 y2)) - l1) <= (2 * c + 24) * u * n.
Proof.
  intros F1 F2 S HD n Hn Hb E1 E2. pose proof u_small as (U & U'). pose proof (Rabs_pos (val y1)). pose proof (Rabs_pos (val y2)).
  assert (L : Rabs (val y1 + val y2) <= Rabs (val y1) + Rabs (val y2)) by apply Rabs_triang.
  assert (B9 : 4 * bpow radix2 800 <= bpow radix2 900) by (change 4 with (bpow radix2 2); rewrite <- bpow_plus; apply bpow_le; lia).
  destruct (add_any y1 y2 F1 F2) as (Fa & Ea). { lra. }
  assert (Ea' : Rabs (val (add y1 y2) - (val y1 + val y2)) <= u * n) by (eapply Rle_trans; [exact Ea | apply Rmult_le_compat_l; lra]).
  assert (UN : u * n <= n * / 1000000) by (rewrite (Rmult_comm u n); apply Rmult_le_compat_l; lra).
  assert (La : Rabs (val (add y1 y2)) <= n - 1 + u * n) by (pose proof (abs_le_add _ _ _ Ea'); lra).
  assert (Ls : Rabs (val one - val (add y1 y2)) <= n + u * n) by (rewrite val_one; eapply Rle_trans; [apply Rabs_triang |]; rewrite Rabs_Ropp, Rabs_R1; lra).
  destruct (sub_any one (add y1 y2) fin_one Fa) as (Fs & Es). { lra. }
  split; [exact Fs |]. rewrite val_one in Es, Ls.
  assert (Es' : Rabs (val (sub one (add y1 y2)) - (1 - val (add y1 y2))) <= u * (3 * n)) by (eapply Rle_trans; [exact Es | apply Rmult_le_compat_l; lra]).
  replace (val (sub one (add y1 y2)) - l1) with ((val (sub one (add y1 y2)) - (1 - val (add y1 y2))) + (- (val (add y1 y2) - (val y1 + val y2)) + (- (val y1 - l2) + - (val y2 - l3)))) by (replace l1 with (1 - l2 - l3) by lra; ring).
  assert (T : forall a b c d, Rabs (a + (- b + (- c + - d))) <= Rabs a + (Rabs b + (Rabs c + Rabs d))).
  { intros a b e d. eapply Rle_trans; [apply Rabs_triang |]. apply Rplus_le_compat_l. eapply Rle_trans; [apply Rabs_triang |]. rewrite Rabs_Ropp. apply Rplus_le_compat_l.
    eapply Rle_trans; [apply Rabs_triang |]. rewrite !Rabs_Ropp. lra. }
  eapply Rle_trans; [apply Rmult_le_compat_l; [lra | apply T] |].
  assert (D * Rabs (val (sub one (add y1 y2)) - (1 - val (add y1 y2))) <= D * (u * (3 * n))) by (apply Rmult_le_compat_l; lra).
  assert (D * Rabs (val (add y1 y2) - (val y1 + val y2)) <= D * (u * n)) by (apply Rmult_le_compat_l; lra).
  assert (0 <= u * n) by (apply Rmult_le_pos; lra). assert (D * (u * n) <= 6 * (u * n)) by (apply Rmult_le_compat_r; lra). lra.
Qed.

Lemma bpow_neg42 : bpow radix2 (-42) = / 4398046511104.
Proof. reflexivity. Qed.
Lemma u_value : u = / 9007199254740992.
Proof. unfold u. cbn. lra. Qed.

Lemma signs_ok a0 a1 a2 a3 b0 b1 b2 b3 c0 c1 c2 c3 (l1 l2 l3 : Q) k : row_ok a0 a1 a2 a3 -> row_ok b0 b1 b2 b3 -> row_ok c0 c1 c2 c3 ->
  equation a0 a1 a2 a3 (Q2R l2) (Q2R l3) k -> equation b0 b1 b2 b3 (Q2R l2) (Q2R l3) k -> equation c0 c1 c2 c3 (Q2R l2) (Q2R l3) k -> (l1 + l2 + l3 == 1)%Q ->
  forall D, D = Rabs (det3 a0 a1 a2 b0 b1 b2 c0 c1 c2) -> / 274877906944 <= D * D * Rabs (Q2R l1) -> / 274877906944 <= D * D * Rabs (Q2R l2) -> / 274877906944 <= D * D * Rabs (Q2R l3) ->
  exists r s t, solve64 3 [[a0; a1; a2; a3]; [b0; b1; b2; b3]; [c0; c1; c2; c3]] = Value [r; s; t] /\
    (nonzero_sign64 r = Imprecise \/ nonzero_sign64 r = Value (sign_of l2) /\ sign_of l2 <> Zero) /\
    (nonzero_sign64 s = Imprecise \/ nonzero_sign64 s = Value (sign_of l3) /\ sign_of l3 <> Zero) /\
    (nonzero_sign64 (sub one (add r s)) = Imprecise \/ nonzero_sign64 (sub one (add r s)) = Value (sign_of l1) /\ sign_of l1 <> Zero).
Proof.
  intros Ha Hb Hc S1 S2 S3 Sum D ED K1 K2 K3.
  assert (HD : 0 <= D) by (rewrite ED; apply Rabs_pos).
  assert (L6 : D * Rabs (Q2R l2) <= 6).
  { pose proof Ha as (_ & _ & _ & _ & A). pose proof Hb as (_ & _ & _ & _ & B). pose proof Hc as (_ & _ & _ & _ & C).
    destruct (cramers _ _ _ _ _ _ _ _ _ _ _ _ Ha Hb Hc _ _ _ _ _ _ S1 S2 S3 1 A B C) as (Q & _). rewrite Rabs_mult, <- ED in Q. lra. }
  assert (D6 : D <= 6).
  { pose proof Ha as ((_ & A) & _). pose proof Hb as ((_ & B) & _). pose proof Hc as ((_ & C) & _).
    destruct (cramers _ _ _ _ _ _ _ _ _ _ _ _ Ha Hb Hc (val a0) (val b0) (val c0) 1 0 0 ltac:(ring) ltac:(ring) ltac:(ring) 1 A B C) as (Q & _). rewrite Rmult_1_r, <- ED in Q. lra. }
  assert (D42 : / 4398046511104 <= D). { assert (D * (D * Rabs (Q2R l2)) <= D * 6) by (apply Rmult_le_compat_l; assumption). lra. }
  assert (Hdet : bpow radix2 (-42) <= Rabs (det3 a0 a1 a2 b0 b1 b2 c0 c1 c2)) by (rewrite <- ED, bpow_neg42; exact D42).
  destruct (solve3_ok _ _ _ _ _ _ _ _ _ _ _ _ _ _ _ Ha Hb Hc Hdet S1 S2 S3) as (r & s & t & E & F1 & F2 & F3 & C). cbv zeta in C. rewrite <- ED in C.
  set (n := 1 + Rabs (val r) + Rabs (val s) + Rabs (val t)) in C. destruct C as (N & E1 & E2 & E3).
  pose proof (Rabs_pos (val r)). pose proof (Rabs_pos (val s)). pose proof (Rabs_pos (val t)).
  assert (N1 : 1 + Rabs (val r) + Rabs (val s) <= n) by (unfold n; lra). clearbody n.
  assert (SumR : Q2R l1 + Q2R l2 + Q2R l3 = 1) by (rewrite <- !Q2R_plus, (Qeq_eqR _ _ Sum); unfold Q2R; cbn; lra).
  assert (Nb : n <= bpow radix2 800).
  { apply Rle_trans with (bpow radix2 60); [| apply bpow_le; lia]. change (bpow radix2 60) with 1152921504606846976.
    assert (/ 4398046511104 * n <= D * n) by (apply Rmult_le_compat_r; lra). lra. }
  destruct (one_sub_ok r s (Q2R l1) (Q2R l2) (Q2R l3) D 256 F1 F2 SumR (conj HD D6) n N1 Nb E1 E2) as (F4 & E4). replace (2 * 256 + 24) with 536 in E4 by lra.
  assert (UN : u * (D * n) <= u * 40) by (apply Rmult_le_compat_l; [pose proof u_small; lra | exact N]). rewrite u_value in *.
  assert (X : forall v l, D * Rabs (v - l) <= 536 * / 9007199254740992 * n -> / 274877906944 <= D * D * Rabs l -> D * D * Rabs (v - l) < D * D * Rabs l).
  { intros v l A B. apply Rlt_le_trans with (/ 274877906944); [| exact B]. rewrite Rmult_assoc. apply Rle_lt_trans with (D * (536 * / 9007199254740992 * n)); [apply Rmult_le_compat_l; assumption |]. lra. }
  assert (DD : 0 < D * D) by (apply Rmult_lt_0_compat; lra).
  exists r, s, t. split; [exact E |]. split; [| split].
  - apply (sign_near r l2 (D * D) F1 DD). apply X; [lra | exact K2].
  - apply (sign_near s l3 (D * D) F2 DD). apply X; [lra | exact K3].
  - apply (sign_near _ l1 (D * D) F4 DD). apply X; [exact E4 | exact K1].
Qed.

(** ** The exact branch on the numbers that are equal to the coordinates *)
Lemma fallback_ok T q1 q2 T' q1' q2' l1 l2 l3 : eq3 (t3p1 T') (t3p1 T) -> eq3 (t3p2 T') (t3p2 T) -> eq3 (t3p3 T') (t3p3 T) -> eq3 q1' q1 -> eq3 q2' q2 ->
  (~ volume_of_line T q1 q2 == 0)%Q -> line_meets T q1 q2 l1 l2 l3 -> (~ l1 == 0)%Q -> (~ l2 == 0)%Q -> (~ l3 == 0)%Q ->
  exists i, get_line_intersection_type T' q1' q2' = Some i /\ describes i l1 l2 l3.
Proof.
  intros (A1 & A2 & A3) (B1 & B2 & B3) (C1 & C2 & C3) (X1 & X2 & X3) (Y1 & Y2 & Y3) V (k & Sum & M1 & M2 & M3) N1 N2 N3.
  assert (P : ~ parallel T' q1' q2').
  { intro P. apply V. unfold volume_of_line, triple. unfold parallel, triple in P. rewrite A1, A2, A3, B1, B2, B3, C1, C2, C3, X1, X2, X3, Y1, Y2, Y3 in P. exact P. }
  assert (M : line_meets T' q1' q2' l1 l2 l3).
  { exists k. cbn [x3 y3 z3] in *. repeat split; cbn [x3 y3 z3]; [exact Sum | | |]; rewrite ?A1, ?A2, ?A3, ?B1, ?B2, ?B3, ?C1, ?C2, ?C3, ?X1, ?X2, ?X3, ?Y1, ?Y2, ?Y3; assumption. }
  destruct (line_intersection_ok _ _ _ P) as (m1 & m2 & m3 & M' & G & Z). destruct (line_meets_unique _ _ _ _ _ _ _ _ _ P M M') as (E1 & E2 & E3).
  destruct (get_line_intersection_type T' q1' q2') as [i |] eqn:E.
  - exists i. split; [reflexivity |]. pose proof (proj1 (G i) eq_refl) as D. destruct i as [|[]|[] []]; cbn [describes] in *; rewrite ?E1, ?E2, ?E3; exact D.
  - exfalso. destruct (proj1 Z eq_refl) as [Z' | [Z' | Z']]; [apply N1 | apply N2 | apply N3]; [rewrite E1 | rewrite E2 | rewrite E3]; exact Z'.
Qed.

Lemma clear_nonzero k d l : clear (1 # 2 ^ k) d l -> (~ d == 0)%Q /\ (~ l == 0)%Q.
Proof.
  intro H. split; intro E; unfold clear in H; rewrite E in H; revert H; apply Qlt_not_le.
  - setoid_replace (0 * 0 * Qabs l)%Q with 0%Q by ring. reflexivity.
  - setoid_replace (d * d * Qabs 0)%Q with 0%Q by (change (Qabs 0) with 0%Q; ring). reflexivity.
Qed.

Theorem line_decided t q1 q2 T Q1 Q2 l1 l2 l3 : represents_triangle3 t T -> represents3 q1 Q1 -> represents3 q2 Q2 -> unit_triangle3 T -> unit_box Q1 -> unit_box Q2 -> line_meets T Q1 Q2 l1 l2 l3 ->
  clear (1 # 2 ^ 38) (volume_of_line T Q1 Q2) l1 -> clear (1 # 2 ^ 38) (volume_of_line T Q1 Q2) l2 -> clear (1 # 2 ^ 38) (volume_of_line T Q1 Q2) l3 ->
  exists i, line64 t q1 q2 = Value i /\ describes i l1 l2 l3.
Proof.
  intros ((P1x & P1y & P1z) & (P2x & P2y & P2z) & (P3x & P3y & P3z)) (X1 & Y1 & Z1) (X2 & Y2 & Z2) ((U1x & U1y & U1z) & (U2x & U2y & U2z) & (U3x & U3y & U3z)) (V1x & V1y & V1z) (V2x & V2y & V2z) M K1 K2 K3.
  pose proof (clear_nonzero _ _ _ K1) as (V & N1). pose proof (clear_nonzero _ _ _ K2) as (_ & N2). pose proof (clear_nonzero _ _ _ K3) as (_ & N3).
  assert (Exact : exists i, bind (lift_point (ft31 t)) (fun p1 => bind (lift_point (ft32 t)) (fun p2 => bind (lift_point (ft33 t)) (fun p3 =>
     bind (lift_point q1) (fun q1 => bind (lift_point q2) (fun q2 => unwrap (get_line_intersection_type (T3 p1 p2 p3) q1 q2)))))) = Value i /\ describes i l1 l2 l3).
  { destruct (lift_point_ok (ft31 t) (t3p1 T) (conj P1x (conj P1y P1z))) as (A & -> & EA). destruct (lift_point_ok (ft32 t) (t3p2 T) (conj P2x (conj P2y P2z))) as (B & -> & EB).
    destruct (lift_point_ok (ft33 t) (t3p3 T) (conj P3x (conj P3y P3z))) as (C & -> & EC). destruct (lift_point_ok q1 Q1 (conj X1 (conj Y1 Z1))) as (D & -> & ED).
    destruct (lift_point_ok q2 Q2 (conj X2 (conj Y2 Z2))) as (E & -> & EE). cbn [bind].
    destruct (fallback_ok T Q1 Q2 (T3 A B C) D E l1 l2 l3 EA EB EC ED EE V M N1 N2 N3) as (i & -> & H). exists i. split; [reflexivity | exact H]. }
  destruct (ok_diff _ _ _ _ P2x P1x U2x U1x) as (Ox2 & Ex2). destruct (ok_diff _ _ _ _ P2y P1y U2y U1y) as (Oy2 & Ey2). destruct (ok_diff _ _ _ _ P2z P1z U2z U1z) as (Oz2 & Ez2).
  destruct (ok_diff _ _ _ _ P3x P1x U3x U1x) as (Ox3 & Ex3). destruct (ok_diff _ _ _ _ P3y P1y U3y U1y) as (Oy3 & Ey3). destruct (ok_diff _ _ _ _ P3z P1z U3z U1z) as (Oz3 & Ez3).
  destruct (ok_diff _ _ _ _ X2 X1 V2x V1x) as (Okx & Ekx). destruct (ok_diff _ _ _ _ Y2 Y1 V2y V1y) as (Oky & Eky). destruct (ok_diff _ _ _ _ Z2 Z1 V2z V1z) as (Okz & Ekz).
  destruct (ok_diff _ _ _ _ X1 P1x V1x U1x) as (Ocx & Ecx). destruct (ok_diff _ _ _ _ Y1 P1y V1y U1y) as (Ocy & Ecy). destruct (ok_diff _ _ _ _ Z1 P1z V1z U1z) as (Ocz & Ecz).
  pose proof (opp_val (sub (fx q2) (fx q1))) as Onx. pose proof (opp_val (sub (fy q2) (fy q1))) as Ony. pose proof (opp_val (sub (fz q2) (fz q1))) as Onz. rewrite Ekx in Onx. rewrite Eky in Ony. rewrite Ekz in Onz.
  destruct M as (k & Sum & Mx & My & Mz). cbn [x3 y3 z3] in Mx, My, Mz.
  assert (SumR : Q2R l1 = 1 - Q2R l2 - Q2R l3).
  { apply Qeq_eqR in Sum. rewrite !Q2R_plus in Sum. replace (Q2R 1) with 1 in Sum by (unfold Q2R; cbn; lra). lra. }
  assert (Eq : forall a0 a1 a2 a3 p1 p2 p3 q q', val a0 = Q2R p2 - Q2R p1 -> val a1 = Q2R p3 - Q2R p1 -> val a2 = - (Q2R q' - Q2R q) -> val a3 = Q2R q - Q2R p1 ->
    (q + k * (q' - q) == l1 * p1 + l2 * p2 + l3 * p3)%Q -> equation a0 a1 a2 a3 (Q2R l2) (Q2R l3) (Q2R k)).
  { intros a0 a1 a2 a3 p1 p2 p3 q q' E0 E1 E2 E3 H. apply Qeq_eqR in H. rewrite !Q2R_plus, !Q2R_mult, Q2R_minus in H. unfold equation. rewrite E0, E1, E2, E3. rewrite SumR in H. lra. }
  assert (Det : forall a0 a1 a2 b0 b1 b2 c0 c1 c2, val a0 = Q2R (x3 (t3p2 T)) - Q2R (x3 (t3p1 T)) -> val a1 = Q2R (x3 (t3p3 T)) - Q2R (x3 (t3p1 T)) -> val a2 = - (Q2R (x3 Q2) - Q2R (x3 Q1)) ->
    val b0 = Q2R (y3 (t3p2 T)) - Q2R (y3 (t3p1 T)) -> val b1 = Q2R (y3 (t3p3 T)) - Q2R (y3 (t3p1 T)) -> val b2 = - (Q2R (y3 Q2) - Q2R (y3 Q1)) ->
    val c0 = Q2R (z3 (t3p2 T)) - Q2R (z3 (t3p1 T)) -> val c1 = Q2R (z3 (t3p3 T)) - Q2R (z3 (t3p1 T)) -> val c2 = - (Q2R (z3 Q2) - Q2R (z3 Q1)) ->
    det3 a0 a1 a2 b0 b1 b2 c0 c1 c2 = - Q2R (volume_of_line T Q1 Q2)).
  { intros a0 a1 a2 b0 b1 b2 c0 c1 c2 W0 W1 W2 W3 W4 W5 W6 W7 W8. unfold volume_of_line, triple. rewrite ?Q2R_plus, ?Q2R_minus, ?Q2R_mult, ?Q2R_minus, ?Q2R_mult, ?Q2R_minus. unfold det3. rewrite W0, W1, W2, W3, W4, W5, W6, W7, W8. ring. }
  assert (Abs : forall x l, / 274877906944 <= x * x * Rabs l -> / 274877906944 <= Rabs (- x) * Rabs (- x) * Rabs l).
  { intros x l H. rewrite <- Rabs_mult, Rabs_pos_eq by nra. replace (- x * - x) with (x * x) by ring. exact H. }
  apply clear_R in K1. apply clear_R in K2. apply clear_R in K3.
  destruct (signs_ok _ _ _ _ _ _ _ _ _ _ _ _ l1 l2 l3 (Q2R k) (conj Ox2 (conj Ox3 (conj (opp_ok _ Okx) Ocx))) (conj Oy2 (conj Oy3 (conj (opp_ok _ Oky) Ocy))) (conj Oz2 (conj Oz3 (conj (opp_ok _ Okz) Ocz)))
    (Eq _ _ _ _ _ _ _ _ _ Ex2 Ex3 Onx Ecx Mx) (Eq _ _ _ _ _ _ _ _ _ Ey2 Ey3 Ony Ecy My) (Eq _ _ _ _ _ _ _ _ _ Ez2 Ez3 Onz Ecz Mz) Sum _ eq_refl) as (r & s & w & E & G).
  1-3: rewrite (Det _ _ _ _ _ _ _ _ _ Ex2 Ex3 Onx Ey2 Ey3 Ony Ez2 Ez3 Onz); apply Abs; assumption.
  destruct G as (G2 & G3 & G1).
  unfold line64, line_type64. cbv zeta. unfold fsub3. cbn [fx fy fz]. match goal with |- context [solve64 3 ?m] => replace (solve64 3 m) with (Value [r; s; w]) by (symmetry; exact E) end. cbn [bind].
  destruct (type_ok r s l1 l2 l3 Sum G2 G3 G1) as [H | (i & H & Di)]; rewrite H; cbn [or_else]; [exact Exact | exists i; split; [reflexivity | exact Di]].
Qed.
