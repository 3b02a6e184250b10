(** C86-C90: the geometric tests of the triangulation and the computations with coordinates, as they are executed with [f64]. *)
From Coq Require Import ZArith NArith QArith Qabs Qreals Reals Lra Bool List.
From Flocq Require Import Core IEEE754.BinarySingleNaN.
From Verif Require Import Geometry_Model Geometry_Spec Float_Model Float_Spec Float_Proofs Float_InSphere_Proofs Float_Contains_Proofs Float_Witness_Proofs
  Float_Coord_Proofs Float_Wrap_Proofs Float_Key_Proofs.
Import ListNotations.

(** * C86 *)
(** If the test with [f64] gives an answer, the answer is right; it answers whenever the point is not very close to the sphere. Answering
    [false] it does not tell a point outside from a corner. *)
Theorem C86_filter : forall t p T P o, represents_tetra t T -> represents3 p P -> unit_tetra T -> unit_box P -> (0 < volume6 T)%Q -> circumscribed3 T o ->
  match circumcircle_contains_float t p with
  | Value true => (dist2_3 o P < dist2_3 o (ttp1 T))%Q
  | Value false => (dist2_3 o (ttp1 T) < dist2_3 o P)%Q \/ a_corner T P
  | Imprecise => (Qabs (volume6 T * (dist2_3 o P - dist2_3 o (ttp1 T))) < 1 # 2 ^ 39)%Q
  | Panics => False
  end.
Proof. exact filter_ok. Qed.
Print Assumptions C86_filter.

(** With the second test for the remaining cases all points are classified rightly that are not extremely close to the sphere. *)
Theorem C86_whole_test : forall t p T P o, represents_tetra t T -> represents3 p P -> unit_tetra T -> unit_box P -> (0 < volume6 T)%Q -> circumscribed3 T o ->
  (1 # 2 ^ 42 <= Qabs (volume6 T * (dist2_3 o P - dist2_3 o (ttp1 T))))%Q ->
  match circumcircle_contains64 t p with
  | Value true => (dist2_3 o P < dist2_3 o (ttp1 T))%Q
  | Value false => (dist2_3 o (ttp1 T) < dist2_3 o P)%Q
  | Imprecise | Panics => False
  end.
Proof. exact whole_ok. Qed.
Print Assumptions C86_whole_test.

(** Refuted: that it is exact for all points. The squared norms are rounded before the numbers are made exact. *)
Theorem C86_exact_refuted : exists t p T P o, represents_tetra t T /\ represents3 p P /\ unit_tetra T /\ unit_box P /\ (0 < volume6 T)%Q /\ circumscribed3 T o /\
  circumcircle_contains64 t p = Value false /\ (dist2_3 o P < dist2_3 o (ttp1 T))%Q.
Proof. exact in_sphere_wrong. Qed.
Print Assumptions C86_exact_refuted.

(** A corner of the unit cube and points inside and outside. *)
Definition ex_one : f64 := f52 4503599627370496 eq_refl.
Definition ex_half : f64 := f52 6755399441055744 eq_refl.
Definition ex_two : f64 := @B754_finite 53 1024 false 4503599627370496 (-51) eq_refl.
Definition ex_q1 : Q := q52 4503599627370496.
Definition ex_qh : Q := q52 6755399441055744.
Definition ex_q2 : Q := 4503599627370496 # 2251799813685248.
Definition ex_t : ftetrahedron := FT (F3 ex_one ex_one ex_one) (F3 ex_half ex_one ex_one) (F3 ex_one ex_half ex_one) (F3 ex_one ex_one ex_half).
Definition ex_T : tetrahedron := TT (P3 ex_q1 ex_q1 ex_q1) (P3 ex_qh ex_q1 ex_q1) (P3 ex_q1 ex_qh ex_q1) (P3 ex_q1 ex_q1 ex_qh).
Definition ex_in : fpoint3 := F3 (f52 4953959590107546 eq_refl) (f52 4953959590107546 eq_refl) (f52 4953959590107546 eq_refl).
Definition ex_In : point3 := P3 (q52 4953959590107546) (q52 4953959590107546) (q52 4953959590107546).
Definition ex_out : fpoint3 := F3 ex_two ex_half ex_one.
Definition ex_Out : point3 := P3 ex_q2 ex_qh ex_q1.
Definition ex_o : point3 := P3 (5 # 4) (5 # 4) (5 # 4).
Example C86_example : represents_tetra ex_t ex_T /\ represents3 ex_in ex_In /\ represents3 ex_out ex_Out /\ unit_tetra ex_T /\ unit_box ex_In /\ unit_box ex_Out /\
  (0 < volume6 ex_T)%Q /\ circumscribed3 ex_T ex_o /\ (1 # 2 ^ 42 <= Qabs (volume6 ex_T * (dist2_3 ex_o ex_In - dist2_3 ex_o (ttp1 ex_T))))%Q /\
  circumcircle_contains64 ex_t ex_in = Value true /\ circumcircle_contains64 ex_t ex_out = Value false /\
  circumcircle_contains_float ex_t (F3 ex_half ex_half ex_one) = Imprecise /\ circumcircle_contains64 ex_t (F3 ex_half ex_half ex_one) = Panics.
Proof.
  unfold represents_tetra, represents3, unit_tetra, unit_box, in_box3, circumscribed3.
  repeat match goal with |- _ /\ _ => split | |- represents _ _ => split; reflexivity end; try (lazy; reflexivity); try (lazy; discriminate).
Qed.

(** * C87 *)
(** For points in the box the test is exact: it gives the answer of exact arithmetic. *)
Theorem C87_same_as_exact : forall t p T P, represents_tetra t T -> represents3 p P -> unit_tetra T -> unit_box P -> contains64 t p = unwrap (contains3 T P).
Proof. exact contains_ok. Qed.
Print Assumptions C87_same_as_exact.

Theorem C87_geometry : forall t p T P, represents_tetra t T -> represents3 p P -> unit_tetra T -> unit_box P -> ~ (volume6 T == 0)%Q ->
  match contains64 t p with
  | Value true => strictly_inside3 T P
  | Value false => strictly_outside3 T P
  | Panics => on_face_plane3 T P
  | Imprecise => False
  end.
Proof. exact contains_geometry. Qed.
Print Assumptions C87_geometry.

Example C87_example : represents_tetra ex_t ex_T /\ represents3 ex_in ex_In /\ unit_tetra ex_T /\ unit_box ex_In /\ ~ (volume6 ex_T == 0)%Q /\
  contains64 ex_t ex_in = Value true /\ contains64 ex_t (F3 ex_two ex_half ex_half) = Value false /\ contains64 ex_t (F3 (fx ex_in) (fy ex_in) ex_one) = Panics.
Proof.
  unfold represents_tetra, represents3, unit_tetra, unit_box, in_box3, circumscribed3.
  repeat match goal with |- _ /\ _ => split | |- represents _ _ => split; reflexivity end; try (lazy; reflexivity); try (lazy; discriminate).
Qed.

(** * C88 *)
Open Scope R_scope.
(** The mapped coordinate lies between 1 and 2, the ends are mapped to the ends, and the result is close to the exact one. *)
Theorem C88_range : forall min max x, within min max x -> moderate (value max - value min) ->
  finite (remap64 min max x) /\ 1 <= value (remap64 min max x) <= 2 /\
  Rabs (value (remap64 min max x) - (1 + (value x - value min) / (value max - value min))) <= 6 * bpow radix2 (-53) /\
  value (remap64 min max min) = 1 /\ value (remap64 min max max) = 2.
Proof.
  intros min max x (F1 & F2 & F3 & H) M. destruct (remap_range min max F1 F2 M x F3 H) as (F & B). split; [exact F |]. split; [exact B |].
  split; [exact (remap_error min max F1 F2 M x F3 H) |]. split; [exact (remap_min min max F1 F2 M) | exact (remap_max min max F1 F2 M)].
Qed.
Print Assumptions C88_range.

(** It keeps the order of the points, and keeps them apart if they are not very close. *)
Theorem C88_order : forall min max x y, within min max x -> within min max y -> moderate (value max - value min) -> value x <= value y ->
  value (remap64 min max x) <= value (remap64 min max y) /\
  (bpow radix2 (-49) * (value max - value min) < value y - value x -> value (remap64 min max x) < value (remap64 min max y)).
Proof.
  intros min max x y (F1 & F2 & F3 & H) (_ & _ & F4 & H') M O. split.
  - apply (remap_mono min max x y F1 F2 M F3 F4); [apply H | exact O | apply H'].
  - apply (remap_separate min max x y F1 F2 M F3 F4); [apply H | apply H'].
Qed.
Print Assumptions C88_order.

(** The mapped points meet the conditions of the geometric tests above. *)
Theorem C88_box : forall min max p, within3 min max p ->
  moderate (value (fx max) - value (fx min)) -> moderate (value (fy max) - value (fy min)) -> moderate (value (fz max) - value (fz min)) ->
  exists P, represents3 (remap_point64 min max p) P /\ unit_box P.
Proof. exact remap_unit. Qed.
Print Assumptions C88_box.

Lemma ex_value_one : value ex_one = 1. Proof. unfold value, ex_one, f52, B2R, F2R. cbn. lra. Qed.
Lemma ex_value_half : value ex_half = 3 / 2. Proof. unfold value, ex_half, f52, B2R, F2R. cbn. lra. Qed.
Lemma ex_value_two : value ex_two = 2. Proof. unfold value, ex_two, B2R, F2R. cbn. lra. Qed.
Lemma ex_moderate x : 1 <= x <= 4 -> moderate x.
Proof.
  intro H. split; [apply Rle_trans with (bpow radix2 0); [apply bpow_le; discriminate | cbn; lra] | apply Rle_trans with (bpow radix2 2); [cbn; lra | apply bpow_le; discriminate]].
Qed.
Example C88_example : within ex_one ex_two ex_half /\ moderate (value ex_two - value ex_one) /\ within zero ex_two ex_half /\ moderate (value ex_two - value zero) /\
  value ex_one <= value ex_half /\ bpow radix2 (-49) * (value ex_two - value ex_one) < value ex_half - value ex_one /\
  within3 (F3 zero zero zero) (F3 ex_two ex_two ex_two) (F3 ex_one ex_half ex_two) /\ B2SF (remap64 zero ex_two ex_half) = B2SF (f52 7881299347898368 eq_refl).
Proof.
  unfold within3, within. cbn [fx fy fz]. rewrite ex_value_one, ex_value_half, ex_value_two. change (value zero) with 0.
  assert (bpow radix2 (-49) <= bpow radix2 (-2)) by (apply bpow_le; discriminate). change (bpow radix2 (-2)) with (/ 4) in *.
  repeat match goal with |- _ /\ _ => split end; try reflexivity; try (apply ex_moderate; lra); try lra.
Qed.

(** Refuted: that different points stay different. *)
Theorem C88_distinct_refuted : exists min max x y, within min max x /\ within min max y /\ moderate (value max - value min) /\ value x < value y /\
  remap64 min max x = remap64 min max y.
Proof.
  exists zero, ex_one, (@B754_finite 53 1024 false 4503599627370496 (-152) eq_refl), (@B754_finite 53 1024 false 4503599627370496 (-151) eq_refl).
  unfold within. rewrite ex_value_one. change (value zero) with 0.
  assert (V : forall e B, value (@B754_finite 53 1024 false 4503599627370496 e B) = bpow radix2 (52 + e)).
  { intros e B. unfold value, B2R, F2R. cbn [Fnum Fexp cond_Zopp]. rewrite bpow_plus. reflexivity. }
  rewrite !V. assert (L : bpow radix2 (52 + -151) < bpow radix2 0) by (apply bpow_lt; reflexivity). change (bpow radix2 0) with 1 in L.
  assert (K : bpow radix2 (52 + -152) < bpow radix2 (52 + -151)) by (apply bpow_lt; reflexivity). pose proof (bpow_gt_0 radix2 (52 + -152)).
  repeat match goal with |- _ /\ _ => split end; try reflexivity; try lra; [apply ex_moderate; lra |]. apply B2SF_inj. lazy. reflexivity.
Qed.
Print Assumptions C88_distinct_refuted.

(** * C89 *)
(** Wrapping gives the number of type [f64] closest to the exact result; for positions that are not negative it gives the exact result. *)
Theorem C89_wrap : forall v L, finite v -> finite L -> 0 < value L <= bpow radix2 1000 -> Rabs (value v) <= bpow radix2 1000 ->
  0 <= value (wrap64 v zero L) <= value L /\
  exists k : Z, 0 <= value v - IZR k * value L < value L /\ closest (wrap64 v zero L) (value v - IZR k * value L)
    /\ (0 <= value v -> value (wrap64 v zero L) = value v - IZR k * value L).
Proof. exact wrap_spec. Qed.
Print Assumptions C89_wrap.

(** The image of a distance that is found is exactly the smallest one. *)
Theorem C89_nearest_image : forall v L, finite v -> finite L -> moderate (value L) -> Rabs (value v) <= 3 / 2 * value L ->
  exists k : Z, value (minimize64 v L) = value v + IZR k * value L /\ forall m : Z, Rabs (value (minimize64 v L)) <= Rabs (value v + IZR m * value L).
Proof. exact minimize_spec. Qed.
Print Assumptions C89_nearest_image.

Example C89_example : finite (Bopp ex_half) /\ 0 < value ex_two <= bpow radix2 1000 /\ Rabs (value (Bopp ex_half)) <= bpow radix2 1000 /\
  Rabs (value (Bopp ex_half)) <= 3 / 2 * value ex_two /\ moderate (value ex_two) /\
  B2SF (wrap64 (Bopp ex_half) zero ex_two) = B2SF (lit 1 (-1)) /\ B2SF (minimize64 (Bopp ex_half) ex_two) = B2SF (lit 1 (-1)) /\
  B2SF (wrap64 (lit 9 (-1)) zero ex_two) = B2SF (lit 1 (-1)).
Proof.
  assert (V : value (Bopp ex_half) = - (3 / 2)) by (unfold value; rewrite B2R_Bopp; change (B2R ex_half) with (value ex_half); rewrite ex_value_half; reflexivity).
  rewrite V, ex_value_two, Rabs_Ropp, Rabs_pos_eq by lra. assert (bpow radix2 1 <= bpow radix2 1000) by (apply bpow_le; discriminate). change (bpow radix2 1) with 2 in *.
  repeat match goal with |- _ /\ _ => split end; try (lazy; reflexivity); try lra. apply ex_moderate. lra.
Qed.

(** Refuted: that the result is smaller than the length of the box. *)
Theorem C89_half_open_refuted : exists v L, finite v /\ finite L /\ 0 < value L <= bpow radix2 1000 /\ Rabs (value v) <= value L /\ value (wrap64 v zero L) = value L.
Proof.
  exists (@B754_finite 53 1024 true 4503599627370496 (-152) eq_refl), ex_one. rewrite ex_value_one.
  assert (E : wrap64 (@B754_finite 53 1024 true 4503599627370496 (-152) eq_refl) zero ex_one = ex_one) by (apply B2SF_inj; lazy; reflexivity). rewrite E, ex_value_one.
  assert (V : value (@B754_finite 53 1024 true 4503599627370496 (-152) eq_refl) = - bpow radix2 (52 + -152)).
  { unfold value, B2R, F2R. cbn [Fnum Fexp cond_Zopp]. rewrite bpow_plus. change (Z.neg 4503599627370496) with (- (4503599627370496))%Z. rewrite opp_IZR. change (bpow radix2 52) with 4503599627370496. ring. }
  assert (bpow radix2 (52 + -152) < bpow radix2 0) by (apply bpow_lt; reflexivity). assert (bpow radix2 0 < bpow radix2 1000) by (apply bpow_lt; reflexivity).
  change (bpow radix2 0) with 1 in *. pose proof (bpow_gt_0 radix2 (52 + -152)). rewrite V, Rabs_Ropp, Rabs_pos_eq by lra.
  repeat match goal with |- _ /\ _ => split end; try reflexivity; lra.
Qed.
Print Assumptions C89_half_open_refuted.

(** * C90 *)
(** The position on the grid of the curve is a position on the grid, and the order of the coordinates is kept, also strictly if they are
    not very close. *)
Theorem C90_positions : forall bits largest min max x y, (0 <= bits <= 50)%Z -> (2 ^ bits <= largest)%Z -> within min max x -> within min max y -> resolved min max ->
  (0 <= integer_position bits largest x min max < 2 ^ bits)%Z /\
  (value x <= value y -> (integer_position bits largest x min max <= integer_position bits largest y min max)%Z) /\
  (bpow radix2 (1 - bits) * (value max - value min) <= value y - value x -> (integer_position bits largest x min max < integer_position bits largest y min max)%Z).
Proof.
  intros bits largest min max x y B L X Y R. assert (B' : (0 <= bits <= 52)%Z) by (destruct B as (B1 & B2); split; [exact B1 | eapply Z.le_trans; [exact B2 | discriminate]]).
  split; [exact (range_of bits largest min max x B' L X R) |]. split; [exact (mono_of bits largest min max x y B' L X Y R) | exact (separate_of bits largest min max x y B L X Y R)].
Qed.
Print Assumptions C90_positions.

(** Keys are in range, and points which are not very close have different keys. *)
Theorem C90_keys_3d : forall min max p q, within3 min max p -> within3 min max q -> resolved3 min max ->
  (key_3d64 p min max < 2 ^ 126)%N /\
  (apart (bpow radix2 (-41)) (fx min) (fx max) (fx p) (fx q) \/ apart (bpow radix2 (-41)) (fy min) (fy max) (fy p) (fy q) \/ apart (bpow radix2 (-41)) (fz min) (fz max) (fz p) (fz q) ->
   key_3d64 p min max <> key_3d64 q min max).
Proof. exact key3_ok. Qed.
Print Assumptions C90_keys_3d.

Theorem C90_keys_2d : forall min max p q : f64 * f64, within (fst min) (fst max) (fst p) -> within (snd min) (snd max) (snd p) ->
  within (fst min) (fst max) (fst q) -> within (snd min) (snd max) (snd q) -> resolved (fst min) (fst max) -> resolved (snd min) (snd max) ->
  (key_2d64 p min max < 2 ^ 64)%N /\
  (apart (bpow radix2 (-31)) (fst min) (fst max) (fst p) (fst q) \/ apart (bpow radix2 (-31)) (snd min) (snd max) (snd p) (snd q) ->
   key_2d64 p min max <> key_2d64 q min max).
Proof. exact key2_ok. Qed.
Print Assumptions C90_keys_2d.

Lemma ex_resolved : resolved zero ex_two.
Proof.
  unfold resolved. cbv zeta. rewrite ex_value_two. change (value zero) with 0. rewrite Rabs_R0, Rabs_pos_eq by lra.
  assert (bpow radix2 (-800) <= bpow radix2 0) by (apply bpow_le; discriminate). assert (bpow radix2 1 <= bpow radix2 800) by (apply bpow_le; discriminate).
  assert (bpow radix2 0 <= bpow radix2 40) by (apply bpow_le; discriminate). change (bpow radix2 0) with 1 in *. change (bpow radix2 1) with 2 in *. lra.
Qed.
Example C90_example : within zero ex_two ex_one /\ within zero ex_two ex_half /\ resolved zero ex_two /\
  bpow radix2 (1 - 42) * (value ex_two - value zero) <= value ex_half - value ex_one /\
  apart (bpow radix2 (-41)) zero ex_two ex_one ex_half /\
  integer_position 42 (2 ^ 128 - 1) ex_one zero ex_two = 2199023255552%Z /\ integer_position 42 (2 ^ 128 - 1) ex_two zero ex_two = 4393657243128%Z /\
  key_3d64 (F3 ex_one ex_one ex_one) (F3 zero zero zero) (F3 ex_two ex_two ex_two) <> key_3d64 (F3 ex_half ex_one ex_one) (F3 zero zero zero) (F3 ex_two ex_two ex_two).
Proof.
  assert (W : within zero ex_two ex_one /\ within zero ex_two ex_half).
  { unfold within. rewrite ex_value_one, ex_value_half, ex_value_two. change (value zero) with 0. repeat split; lra. }
  assert (A : apart (bpow radix2 (-41)) zero ex_two ex_one ex_half /\ bpow radix2 (1 - 42) * (value ex_two - value zero) <= value ex_half - value ex_one).
  { unfold apart. rewrite ex_value_one, ex_value_half, ex_value_two. change (value zero) with 0. change (1 - 42)%Z with (-41)%Z.
    assert (bpow radix2 (-41) <= bpow radix2 (-2)) by (apply bpow_le; discriminate). change (bpow radix2 (-2)) with (/ 4) in *. rewrite Rabs_left by lra. lra. }
  destruct W as (W1 & W2). destruct A as (A1 & A2). split; [exact W1 |]. split; [exact W2 |]. split; [exact ex_resolved |]. split; [exact A2 |]. split; [exact A1 |].
  split; [lazy; reflexivity |]. split; [lazy; reflexivity |].
  apply C90_keys_3d; [repeat split; apply W1 | repeat split; (apply W1 || apply W2) | split; [|split]; exact ex_resolved | left; exact A1].
Qed.

(** Refuted: that the position is on the grid for every extent. If the numbers of type [f64] do not resolve the padding of the extent its
    last point is given the position [2 ^ bits]. *)
Theorem C90_on_grid_refuted : exists min max x, within min max x /\ value min < value max /\ integer_position 32 (2 ^ 64 - 1) x min max = (2 ^ 32)%Z.
Proof.
  exists ex_one, (f52 4503599627370497 eq_refl), (f52 4503599627370497 eq_refl).
  assert (V : value (f52 4503599627370497 eq_refl) = 1 + bpow radix2 (-52)) by (unfold value, f52, B2R, F2R; cbn; lra).
  unfold within. rewrite V, ex_value_one. pose proof (bpow_gt_0 radix2 (-52)). repeat match goal with |- _ /\ _ => split end; try reflexivity; lra.
Qed.
Print Assumptions C90_on_grid_refuted.
