(** The coordinate computations of whole points: mapped points lie in the box of the geometric tests, keys of different places differ. *)
From Coq Require Import ZArith QArith Qreals Reals Lra Lia Bool List NArith.
From Flocq Require Import Core IEEE754.BinarySingleNaN.
From Verif Require Import Geometry_Model Geometry_Spec Hilbert_Model Hilbert_Spec Hilbert_Proofs Float_Model Float_Spec Float_Proofs Float_Coord_Proofs Float_Wrap_Proofs.
Import ListNotations.
Open Scope R_scope.

Lemma finite_to_Q x : fin x -> exists q, represents x q.
Proof.
  intro F. destruct (to_Q x) as [q |] eqn:E.
  - exists q. exact (to_Q_val x q E).
  - destruct x; discriminate.
Qed.

Lemma remap_represents min max x : within min max x -> moderate (value max - value min) ->
  exists q, represents (remap64 min max x) q /\ (1 <= q <= 2)%Q.
Proof.
  intros (F1 & F2 & F3 & H) M. destruct (remap_range min max F1 F2 M x F3 H) as (F & B1 & B2).
  destruct (finite_to_Q _ F) as (q & R). exists q. split; [exact R |]. destruct R as (_ & R). fold (val (remap64 min max x)) in R. rewrite R in B1, B2.
  split; apply Rle_Qle; unfold Q2R at 1 || idtac; unfold Q2R in *; cbn in *; lra.
Qed.

Theorem remap_unit min max p : within3 min max p ->
  moderate (value (fx max) - value (fx min)) -> moderate (value (fy max) - value (fy min)) -> moderate (value (fz max) - value (fz min)) ->
  exists P, represents3 (remap_point64 min max p) P /\ unit_box P.
Proof.
  intros (W1 & W2 & W3) M1 M2 M3. destruct (remap_represents _ _ _ W1 M1) as (x & Rx & Bx). destruct (remap_represents _ _ _ W2 M2) as (y & Ry & By).
  destruct (remap_represents _ _ _ W3 M3) as (z & Rz & Bz). exists (P3 x y z). split; [repeat split; first [apply Rx | apply Ry | apply Rz] |].
  unfold unit_box, in_box3. cbn. tauto.
Qed.

(** ** The wrap *)
Theorem wrap_spec v L : finite v -> finite L -> 0 < value L <= bpow radix2 1000 -> Rabs (value v) <= bpow radix2 1000 ->
  0 <= value (wrap64 v zero L) <= value L /\
  exists k : Z, 0 <= value v - IZR k * value L < value L /\ closest (wrap64 v zero L) (value v - IZR k * value L)
    /\ (0 <= value v -> value (wrap64 v zero L) = value v - IZR k * value L).
Proof.
  intros F1 F2 (H1 & H2) H3. split; [apply wrap_range; assumption |]. destruct (wrap_val v L F1 F2 H1 H2 H3) as (k & K & F & V & P).
  exists k. split; [exact K |]. split; [| exact P]. split; [exact F |]. intros w _. change (value (wrap64 v zero L)) with (val (wrap64 v zero L)). rewrite V. apply rnd_closest.
Qed.

Theorem minimize_spec v L : finite v -> finite L -> moderate (value L) -> Rabs (value v) <= 3 / 2 * value L ->
  exists k : Z, value (minimize64 v L) = value v + IZR k * value L /\ forall m : Z, Rabs (value (minimize64 v L)) <= Rabs (value v + IZR m * value L).
Proof.
  intros F1 F2 M B. destruct (minimize_val v L F1 F2 M B) as (F & H & k & K). exists k. split; [exact K |]. intro m.
  pose proof p900_pos. destruct M as (M1 & M2). change (value (minimize64 v L)) with (val (minimize64 v L)).
  replace (value v + IZR m * value L) with (val (minimize64 v L) + IZR (m - k) * value L) by (rewrite K, minus_IZR; unfold value, val; ring).
  apply half_is_least; [lra | exact H].
Qed.

(** ** Keys *)
Lemma range_of bits largest min max x : (0 <= bits <= 52)%Z -> (2 ^ bits <= largest)%Z -> within min max x -> resolved min max ->
  (0 <= integer_position bits largest x min max < 2 ^ bits)%Z.
Proof. intros B L (F1 & F2 & F3 & H) ((R1 & R2) & R3 & R4). apply position_range; assumption. Qed.

Lemma mono_of bits largest min max x y : (0 <= bits <= 52)%Z -> (2 ^ bits <= largest)%Z -> within min max x -> within min max y -> resolved min max -> value x <= value y ->
  (integer_position bits largest x min max <= integer_position bits largest y min max)%Z.
Proof. intros B L (F1 & F2 & F3 & H) (_ & _ & F4 & H') ((R1 & R2) & R3 & R4) O. apply position_mono; try assumption; unfold value, val in *; lra. Qed.

Lemma separate_of bits largest min max x y : (0 <= bits <= 50)%Z -> (2 ^ bits <= largest)%Z -> within min max x -> within min max y -> resolved min max ->
  bpow radix2 (1 - bits) * (value max - value min) <= value y - value x ->
  (integer_position bits largest x min max < integer_position bits largest y min max)%Z.
Proof. intros B L (F1 & F2 & F3 & H) (_ & _ & F4 & H') ((R1 & R2) & R3 & R4) O. apply position_separate; try assumption; unfold value, val in *; try lra; lia. Qed.

Lemma apart_differ bits largest min max x y : (0 <= bits <= 50)%Z -> (2 ^ bits <= largest)%Z -> within min max x -> within min max y -> resolved min max ->
  apart (bpow radix2 (1 - bits)) min max x y -> integer_position bits largest x min max <> integer_position bits largest y min max.
Proof.
  intros B L X Y R A. unfold apart in A. destruct (Rle_or_lt 0 (value x - value y)) as [H | H].
  - rewrite Rabs_pos_eq in A by exact H. pose proof (separate_of bits largest min max y x B L Y X R A). lia.
  - rewrite Rabs_left in A by exact H. replace (- (value x - value y)) with (value y - value x) in A by ring.
    pose proof (separate_of bits largest min max x y B L X Y R A). lia.
Qed.

Lemma to_N_lt z n : (0 <= z < Z.of_N n)%Z -> (Z.to_N z < n)%N.
Proof. lia. Qed.

Lemma key3_gen bits (i j k i' j' k' : Z) : (1 <= bits)%nat ->
  (0 <= i < 2 ^ Z.of_nat bits)%Z -> (0 <= j < 2 ^ Z.of_nat bits)%Z -> (0 <= k < 2 ^ Z.of_nat bits)%Z ->
  (0 <= i' < 2 ^ Z.of_nat bits)%Z -> (0 <= j' < 2 ^ Z.of_nat bits)%Z -> (0 <= k' < 2 ^ Z.of_nat bits)%Z ->
  (key_3d bits (Z.to_N i, Z.to_N j, Z.to_N k) < 2 ^ N.of_nat (3 * bits))%N /\
  (key_3d bits (Z.to_N i, Z.to_N j, Z.to_N k) = key_3d bits (Z.to_N i', Z.to_N j', Z.to_N k') -> i = i' /\ j = j' /\ k = k').
Proof.
  intros B A1 A2 A3 B1 B2 B3. destruct (key_3d_bijection bits B) as (K1 & K2 & _).
  assert (T : (Z.of_N (2 ^ N.of_nat bits) = 2 ^ Z.of_nat bits)%Z) by (rewrite N2Z.inj_pow, nat_N_Z; reflexivity).
  assert (G : forall i j k, (0 <= i < 2 ^ Z.of_nat bits)%Z -> (0 <= j < 2 ^ Z.of_nat bits)%Z -> (0 <= k < 2 ^ Z.of_nat bits)%Z -> in_grid_3d (2 ^ N.of_nat bits) (Z.to_N i, Z.to_N j, Z.to_N k)).
  { intros a b c Ha Hb Hc. rewrite <- T in *. repeat split; cbn [fst snd]; apply to_N_lt; assumption. }
  split; [exact (K1 _ (G _ _ _ A1 A2 A3)) |]. intro E. apply K2 in E; [| apply G; assumption | apply G; assumption]. injection E as E1 E2 E3. lia.
Qed.

Lemma key2_gen bits (i j i' j' : Z) :
  (0 <= i < 2 ^ Z.of_nat bits)%Z -> (0 <= j < 2 ^ Z.of_nat bits)%Z -> (0 <= i' < 2 ^ Z.of_nat bits)%Z -> (0 <= j' < 2 ^ Z.of_nat bits)%Z ->
  (key_2d bits (Z.to_N i, Z.to_N j) < 2 ^ N.of_nat (2 * bits))%N /\
  (key_2d bits (Z.to_N i, Z.to_N j) = key_2d bits (Z.to_N i', Z.to_N j') -> i = i' /\ j = j').
Proof.
  intros A1 A2 B1 B2. destruct (key_2d_bijection bits) as (K1 & K2 & _).
  assert (T : (Z.of_N (2 ^ N.of_nat bits) = 2 ^ Z.of_nat bits)%Z) by (rewrite N2Z.inj_pow, nat_N_Z; reflexivity).
  assert (G : forall i j, (0 <= i < 2 ^ Z.of_nat bits)%Z -> (0 <= j < 2 ^ Z.of_nat bits)%Z -> in_grid_2d (2 ^ N.of_nat bits) (Z.to_N i, Z.to_N j)).
  { intros a b Ha Hb. rewrite <- T in *. split; cbn [fst snd]; apply to_N_lt; assumption. }
  split; [exact (K1 _ (G _ _ A1 A2)) |]. intro E. apply K2 in E; [| apply G; assumption | apply G; assumption]. injection E as E1 E2. lia.
Qed.

Section Keys.
  Variables (b3 : nat) (largest3 : Z).
  Hypothesis H3 : (1 <= b3)%nat /\ (Z.of_nat b3 <= 50)%Z /\ (2 ^ Z.of_nat b3 <= largest3)%Z.
  Let key3 (pos min max : fpoint3) : N :=
    let i (c : fpoint3 -> f64) := Z.to_N (integer_position (Z.of_nat b3) largest3 (c pos) (c min) (c max)) in key_3d b3 (i fx, i fy, i fz).

  Lemma key3_all min max p q : within3 min max p -> within3 min max q -> resolved3 min max ->
    (key3 p min max < 2 ^ N.of_nat (3 * b3))%N /\
    (apart (bpow radix2 (1 - Z.of_nat b3)) (fx min) (fx max) (fx p) (fx q) \/ apart (bpow radix2 (1 - Z.of_nat b3)) (fy min) (fy max) (fy p) (fy q)
      \/ apart (bpow radix2 (1 - Z.of_nat b3)) (fz min) (fz max) (fz p) (fz q) -> key3 p min max <> key3 q min max).
  Proof.
    intros (P1 & P2 & P3) (Q1 & Q2 & Q3) (R1 & R2 & R3). destruct H3 as (B1 & B50 & BL).
    destruct (key3_gen b3 (integer_position (Z.of_nat b3) largest3 (fx p) (fx min) (fx max)) (integer_position (Z.of_nat b3) largest3 (fy p) (fy min) (fy max))
      (integer_position (Z.of_nat b3) largest3 (fz p) (fz min) (fz max)) (integer_position (Z.of_nat b3) largest3 (fx q) (fx min) (fx max))
      (integer_position (Z.of_nat b3) largest3 (fy q) (fy min) (fy max)) (integer_position (Z.of_nat b3) largest3 (fz q) (fz min) (fz max)) B1) as (K1 & K2);
      try (apply range_of; (assumption || lia)).
    split; [exact K1 |]. intros D E. destruct (K2 E) as (E1 & E2 & E3).
    destruct D as [D | [D | D]]; [revert E1 | revert E2 | revert E3]; apply apart_differ; (assumption || lia).
  Qed.

End Keys.

Section Keys2.
  Variables (b2 : nat) (largest2 : Z).
  Hypothesis H2 : (Z.of_nat b2 <= 50)%Z /\ (2 ^ Z.of_nat b2 <= largest2)%Z.
  Let key2 (pos min max : f64 * f64) : N :=
    let i (c : f64 * f64 -> f64) := Z.to_N (integer_position (Z.of_nat b2) largest2 (c pos) (c min) (c max)) in key_2d b2 (i fst, i snd).

  Lemma key2_all (min max p q : f64 * f64) : within (fst min) (fst max) (fst p) -> within (snd min) (snd max) (snd p) ->
    within (fst min) (fst max) (fst q) -> within (snd min) (snd max) (snd q) -> resolved (fst min) (fst max) -> resolved (snd min) (snd max) ->
    (key2 p min max < 2 ^ N.of_nat (2 * b2))%N /\
    (apart (bpow radix2 (1 - Z.of_nat b2)) (fst min) (fst max) (fst p) (fst q) \/ apart (bpow radix2 (1 - Z.of_nat b2)) (snd min) (snd max) (snd p) (snd q) ->
     key2 p min max <> key2 q min max).
  Proof.
    intros P1 P2 Q1 Q2 R1 R2. destruct H2 as (B50 & BL).
    destruct (key2_gen b2 (integer_position (Z.of_nat b2) largest2 (fst p) (fst min) (fst max)) (integer_position (Z.of_nat b2) largest2 (snd p) (snd min) (snd max))
      (integer_position (Z.of_nat b2) largest2 (fst q) (fst min) (fst max)) (integer_position (Z.of_nat b2) largest2 (snd q) (snd min) (snd max))) as (K1 & K2);
      try (apply range_of; (assumption || lia)).
    split; [exact K1 |]. intros D E. destruct (K2 E) as (E1 & E2).
    destruct D as [D | D]; [revert E1 | revert E2]; apply apart_differ; (assumption || lia).
  Qed.
End Keys2.

Lemma h42 : (1 <= 42)%nat /\ (Z.of_nat 42 <= 50)%Z /\ (2 ^ Z.of_nat 42 <= 2 ^ 128 - 1)%Z.
Proof. split; [lia |]. split; [discriminate | discriminate]. Qed.
Lemma h32 : (Z.of_nat 32 <= 50)%Z /\ (2 ^ Z.of_nat 32 <= 2 ^ 64 - 1)%Z.
Proof. split; discriminate. Qed.

Theorem key3_ok min max p q : within3 min max p -> within3 min max q -> resolved3 min max ->
  (key_3d64 p min max < 2 ^ 126)%N /\
  (apart (bpow radix2 (-41)) (fx min) (fx max) (fx p) (fx q) \/ apart (bpow radix2 (-41)) (fy min) (fy max) (fy p) (fy q) \/ apart (bpow radix2 (-41)) (fz min) (fz max) (fz p) (fz q) ->
   key_3d64 p min max <> key_3d64 q min max).
Proof. exact (key3_all 42 (2 ^ 128 - 1)%Z h42 min max p q). Qed.

Theorem key2_ok (min max p q : f64 * f64) : within (fst min) (fst max) (fst p) -> within (snd min) (snd max) (snd p) ->
  within (fst min) (fst max) (fst q) -> within (snd min) (snd max) (snd q) -> resolved (fst min) (fst max) -> resolved (snd min) (snd max) ->
  (key_2d64 p min max < 2 ^ 64)%N /\
  (apart (bpow radix2 (-31)) (fst min) (fst max) (fst p) (fst q) \/ apart (bpow radix2 (-31)) (snd min) (snd max) (snd p) (snd q) ->
   key_2d64 p min max <> key_2d64 q min max).
Proof. exact (key2_all 32 (2 ^ 64 - 1)%Z h32 min max p q). Qed.
