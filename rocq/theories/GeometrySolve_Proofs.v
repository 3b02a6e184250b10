(** Proofs about the solver in [f64] (without rounding) and the circumcentre computed
    with it. *)
From Coq Require Import List Arith Lia QArith Qabs Qfield Lqa Bool.
Import ListNotations.
From Verif Require Import Geometry_Model Geometry_Spec Geometry_Proofs.
Local Open Scope Q_scope.

Definition eq_holds (r : eq4) (p : point3) : Prop := e0 r * x3 p + e1 r * y3 p + e2 r * z3 p == e3 r.

Lemma check_nonzero v eps : 0 < eps -> check v eps = true -> ~ v == 0.
Proof. unfold check. intros He H F. apply Qle_bool_iff in H. rewrite F in H. cbn in H. lra. Qed.

Lemma add_row_fields r1 r2 f :
  e0 (add_row r1 r2 f) = e0 r1 + f * e0 r2 /\ e1 (add_row r1 r2 f) = e1 r1 + f * e1 r2
  /\ e2 (add_row r1 r2 f) = e2 r1 + f * e2 r2 /\ e3 (add_row r1 r2 f) = e3 r1 + f * e3 r2.
Proof. destruct r1 as [[[? ?] ?] ?], r2 as [[[? ?] ?] ?]. cbn. auto. Qed.

Lemma add_row_holds r1 r2 f p : eq_holds r2 p -> eq_holds (add_row r1 r2 f) p -> eq_holds r1 p.
Proof.
  unfold eq_holds. destruct (add_row_fields r1 r2 f) as (-> & -> & -> & ->). intros H2 H.
  transitivity ((e0 r1 + f * e0 r2) * x3 p + (e1 r1 + f * e1 r2) * y3 p + (e2 r1 + f * e2 r2) * z3 p
                - f * (e0 r2 * x3 p + e1 r2 * y3 p + e2 r2 * z3 p)); [ring|].
  rewrite H, H2. ring.
Qed.

(** Once the rows are in order. *)
Lemma solve_tail mx my mz p : ~ e0 mx == 0 ->
  (let my := add_row my mx (- e0 my / e0 mx) in
   let mz := add_row mz mx (- e0 mz / e0 mx) in
   let '(my, mz) := if gtb (Qabs (e1 mz)) (Qabs (e1 my)) then (mz, my) else (my, mz) in
   if check (e1 my) gauss_epsilon then
     let mz := add_row mz my (- e1 mz / e1 my) in
     if (check (e2 mz) gauss_epsilon && check (e1 my) gauss_epsilon && check (e0 mx) gauss_epsilon)%bool then
       let v3 := e3 mz / e2 mz in
       let v2 := (e3 my - v3 * e2 my) / e1 my in
       let v1 := (e3 mx - v3 * e2 mx - v2 * e1 mx) / e0 mx in
       Some (P3 v1 v2 v3)
     else None
   else None) = Some p ->
  eq_holds mx p /\ eq_holds my p /\ eq_holds mz p.
Proof.
  intro Hx. cbv zeta.
  set (ry := add_row my mx (- e0 my / e0 mx)). set (rz := add_row mz mx (- e0 mz / e0 mx)).
  assert (Zy : e0 ry == 0) by (unfold ry; destruct (add_row_fields my mx (- e0 my / e0 mx)) as (-> & _); field; exact Hx).
  assert (Zz : e0 rz == 0) by (unfold rz; destruct (add_row_fields mz mx (- e0 mz / e0 mx)) as (-> & _); field; exact Hx).
  assert (G : forall sy sz, e0 sy == 0 -> e0 sz == 0 ->
    (if check (e1 sy) gauss_epsilon then
     if (check (e2 (add_row sz sy (- e1 sz / e1 sy))) gauss_epsilon && check (e1 sy) gauss_epsilon && check (e0 mx) gauss_epsilon)%bool then
       Some (P3 ((e3 mx - e3 (add_row sz sy (- e1 sz / e1 sy)) / e2 (add_row sz sy (- e1 sz / e1 sy)) * e2 mx
                  - (e3 sy - e3 (add_row sz sy (- e1 sz / e1 sy)) / e2 (add_row sz sy (- e1 sz / e1 sy)) * e2 sy) / e1 sy * e1 mx) / e0 mx)
                ((e3 sy - e3 (add_row sz sy (- e1 sz / e1 sy)) / e2 (add_row sz sy (- e1 sz / e1 sy)) * e2 sy) / e1 sy)
                (e3 (add_row sz sy (- e1 sz / e1 sy)) / e2 (add_row sz sy (- e1 sz / e1 sy))))
     else None
   else None) = Some p -> eq_holds mx p /\ eq_holds sy p /\ eq_holds sz p).
  { intros sy sz Hy0 Hz0 H.
    destruct (check (e1 sy) gauss_epsilon) eqn:C1; [|discriminate].
    set (tz := add_row sz sy (- e1 sz / e1 sy)) in *.
    destruct (check (e2 tz) gauss_epsilon) eqn:C2; [|discriminate].
    destruct (check (e0 mx) gauss_epsilon) eqn:C3; [|discriminate]. cbn [andb] in H. injection H as <-.
    assert (N1 : ~ e1 sy == 0) by (apply (check_nonzero _ gauss_epsilon); [reflexivity|exact C1]).
    assert (N2 : ~ e2 tz == 0) by (apply (check_nonzero _ gauss_epsilon); [reflexivity|exact C2]).
    assert (T0 : e0 tz == 0).
    { unfold tz. destruct (add_row_fields sz sy (- e1 sz / e1 sy)) as (-> & _). rewrite Hy0, Hz0. ring. }
    assert (T1 : e1 tz == 0).
    { unfold tz. destruct (add_row_fields sz sy (- e1 sz / e1 sy)) as (_ & -> & _). field. exact N1. }
    assert (Hy : eq_holds sy (P3 ((e3 mx - e3 tz / e2 tz * e2 mx - (e3 sy - e3 tz / e2 tz * e2 sy) / e1 sy * e1 mx) / e0 mx) ((e3 sy - e3 tz / e2 tz * e2 sy) / e1 sy) (e3 tz / e2 tz))).
    { unfold eq_holds. cbn [x3 y3 z3]. rewrite Hy0. field. repeat split; assumption. }
    split; [unfold eq_holds; cbn [x3 y3 z3]; field; repeat split; assumption|]. split; [exact Hy|].
    apply (add_row_holds sz sy (- e1 sz / e1 sy)); [exact Hy|]. fold tz.
    unfold eq_holds. cbn [x3 y3 z3]. rewrite T0, T1. field. repeat split; assumption. }
  destruct (gtb (Qabs (e1 rz)) (Qabs (e1 ry))); intro H.
  - destruct (G rz ry Zz Zy H) as (A & B & C). split; [exact A|]. split.
    + apply (add_row_holds my mx (- e0 my / e0 mx)); assumption.
    + apply (add_row_holds mz mx (- e0 mz / e0 mx)); assumption.
  - destruct (G ry rz Zy Zz H) as (A & B & C). split; [exact A|]. split.
    + apply (add_row_holds my mx (- e0 my / e0 mx)); assumption.
    + apply (add_row_holds mz mx (- e0 mz / e0 mx)); assumption.
Qed.

(** The last check makes sure that the first pivot is not zero. *)
Lemma solve_tail_pivot mx my mz p :
  (let my := add_row my mx (- e0 my / e0 mx) in
   let mz := add_row mz mx (- e0 mz / e0 mx) in
   let '(my, mz) := if gtb (Qabs (e1 mz)) (Qabs (e1 my)) then (mz, my) else (my, mz) in
   if check (e1 my) gauss_epsilon then
     let mz := add_row mz my (- e1 mz / e1 my) in
     if (check (e2 mz) gauss_epsilon && check (e1 my) gauss_epsilon && check (e0 mx) gauss_epsilon)%bool then
       let v3 := e3 mz / e2 mz in
       let v2 := (e3 my - v3 * e2 my) / e1 my in
       let v1 := (e3 mx - v3 * e2 mx - v2 * e1 mx) / e0 mx in
       Some (P3 v1 v2 v3)
     else None
   else None) = Some p -> ~ e0 mx == 0.
Proof.
  cbv zeta.
  destruct (check (e0 mx) gauss_epsilon) eqn:C; [intros _; apply (check_nonzero _ gauss_epsilon); [reflexivity|exact C]|].
  destruct (gtb _ _); rewrite ?andb_false_r; intro H; destruct (check (e1 _) _) in H; discriminate H.
Qed.

Theorem solve_3x4_sound m0 m1 m2 p : solve_3x4 m0 m1 m2 = Some p ->
  eq_holds m0 p /\ eq_holds m1 p /\ eq_holds m2 p.
Proof.
  unfold solve_3x4. intro H.
  destruct (gtb (Qabs (e0 m1)) (Qabs (e0 m0))).
  - destruct (gtb (Qabs (e0 m2)) (Qabs (e0 m1))).
    + destruct (solve_tail m2 m0 m1 p (solve_tail_pivot m2 m0 m1 p H) H) as (A & B & C). auto.
    + destruct (solve_tail m1 m0 m2 p (solve_tail_pivot m1 m0 m2 p H) H) as (A & B & C). auto.
  - destruct (gtb (Qabs (e0 m2)) (Qabs (e0 m0))).
    + destruct (solve_tail m2 m0 m1 p (solve_tail_pivot m2 m0 m1 p H) H) as (A & B & C). auto.
    + destruct (solve_tail m0 m1 m2 p (solve_tail_pivot m0 m1 m2 p H) H) as (A & B & C). auto.
Qed.

Theorem circumcenter3_float_ok t o : circumcenter3_float t = Some o -> circumscribed3 t o.
Proof.
  destruct t as [[ax ay az] [bx by_ bz] [cx cy cz] [dx dy dz]].
  unfold circumcenter3_float. cbn [ttp1 ttp2 ttp3 ttp4]. cbv zeta.
  destruct (solve_3x4 _ _ _) as [[px py pz]|] eqn:E; [|discriminate]. intro H. injection H as <-.
  apply solve_3x4_sound in E. destruct E as (E1 & E2 & E3).
  unfold eq_holds, e0, e1, e2, e3 in *. cbn [sub3 x3 y3 z3 fst snd] in *.
  unfold circumscribed3, dist2_3. cbn [ttp1 ttp2 ttp3 ttp4 add3 x3 y3 z3].
  repeat split; nra.
Qed.

Theorem circumcenter3_ok t : ~ volume6 t == 0 -> circumscribed3 t (circumcenter3 t).
Proof.
  intro HV. unfold circumcenter3. destruct (circumcenter3_float t) as [o|] eqn:E.
  - apply circumcenter3_float_ok. exact E.
  - apply circumcenter3_exact_ok. exact HV.
Qed.

Lemma cramer3 a1 a2 a3 b1 b2 b3 c1 c2 c3 x y z :
  ~ triple a1 a2 a3 b1 b2 b3 c1 c2 c3 == 0 ->
  a1 * x + a2 * y + a3 * z == 0 -> b1 * x + b2 * y + b3 * z == 0 -> c1 * x + c2 * y + c3 * z == 0 ->
  x == 0 /\ y == 0 /\ z == 0.
Proof.
  unfold triple. intros HD H1 H2 H3. set (D := a1 * _ - _ + _) in HD.
  assert (A : D * x == 0).
  { transitivity ((b2 * c3 - b3 * c2) * (a1 * x + a2 * y + a3 * z) - (a2 * c3 - a3 * c2) * (b1 * x + b2 * y + b3 * z) + (a2 * b3 - a3 * b2) * (c1 * x + c2 * y + c3 * z)); [unfold D; ring|].
    rewrite H1, H2, H3. ring. }
  assert (B : D * y == 0).
  { transitivity (- (b1 * c3 - b3 * c1) * (a1 * x + a2 * y + a3 * z) + (a1 * c3 - a3 * c1) * (b1 * x + b2 * y + b3 * z) - (a1 * b3 - a3 * b1) * (c1 * x + c2 * y + c3 * z)); [unfold D; ring|].
    rewrite H1, H2, H3. ring. }
  assert (C : D * z == 0).
  { transitivity ((b1 * c2 - b2 * c1) * (a1 * x + a2 * y + a3 * z) - (a1 * c2 - a2 * c1) * (b1 * x + b2 * y + b3 * z) + (a1 * b2 - a2 * b1) * (c1 * x + c2 * y + c3 * z)); [unfold D; ring|].
    rewrite H1, H2, H3. ring. }
  repeat split; [apply Qmult_integral in A as [F|F]|apply Qmult_integral in B as [F|F]|apply Qmult_integral in C as [F|F]];
    first [contradiction|exact F].
Qed.

Theorem circumcenter3_unique t o : ~ volume6 t == 0 -> circumscribed3 t o ->
  x3 o == x3 (circumcenter3 t) /\ y3 o == y3 (circumcenter3 t) /\ z3 o == z3 (circumcenter3 t).
Proof.
  intros HV HO. assert (HC := circumcenter3_ok t HV). destruct (circumcenter3 t) as [px py pz]. destruct o as [qx qy qz].
  destruct t as [[ax ay az] [bx by_ bz] [cx cy cz] [dx dy dz]]. unfold volume6, circumscribed3, dist2_3 in *. cbn [ttp1 ttp2 ttp3 ttp4 x3 y3 z3] in *.
  destruct HO as (O1 & O2 & O3), HC as (C1 & C2 & C3).
  assert (R : qx - px == 0 /\ qy - py == 0 /\ qz - pz == 0); [|destruct R as (R1 & R2 & R3); repeat split; lra].
  eapply cramer3; [exact HV| | |]; nra.
Qed.
