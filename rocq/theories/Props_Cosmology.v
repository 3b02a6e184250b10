(** Properties C43 and C50: the search for the scale factor and the age of the universe. *)
From Coq Require Import QArith Qabs Lqa Reals Lra.
From Verif Require Import Cosmology_Model Cosmology_Spec Cosmology_Proofs.

(** C43. Whatever the function, a value that is returned lies in the interval and is within
    the threshold. *)
Theorem C43_sound : forall f min max threshold g, (min <= max)%Q ->
  binary_search f min max threshold = Some g ->
  (Qabs (f g) <= threshold /\ min <= g /\ g <= max)%Q.
Proof. exact binary_search_sound. Qed.
Print Assumptions C43_sound.

(** If the function does not decrease and the points within the threshold are not
    confined to less than 2^-101 of the interval, one of them is found. *)
Theorem C43_complete : forall f min max threshold lo hi, nondecreasing f min max ->
  (min <= lo)%Q -> (lo <= hi)%Q -> (hi <= max)%Q ->
  (forall x, (lo <= x)%Q -> (x <= hi)%Q -> (Qabs (f x) <= threshold)%Q) ->
  (max - min < 2 ^ 101 * (hi - lo))%Q ->
  exists g, binary_search f min max threshold = Some g.
Proof. exact binary_search_complete. Qed.
Print Assumptions C43_complete.

(** If no point of the interval is within the threshold, the search fails explicitly. *)
Theorem C43_fails : forall f min max threshold, (min <= max)%Q ->
  (forall x, (min <= x)%Q -> (x <= max)%Q -> (threshold < Qabs (f x))%Q) ->
  binary_search f min max threshold = None.
Proof. exact binary_search_fails. Qed.
Print Assumptions C43_fails.

Local Open Scope Q_scope.
Definition ex_f (x : Q) : Q := x * x * x - (1 # 8) - (1 # 1000).
Example C43_example :
  binary_search ex_f 0 1 (1 # 100) = Some (1 # 2) /\ binary_search ex_f 0 1 (1 # 10000) <> None
  /\ nondecreasing (fun x => x - 3) 0 1 /\ binary_search (fun x => x - 3) 0 1 1 = None.
Proof.
  split; [vm_compute; reflexivity|]. split; [vm_compute; discriminate|].
  split; [intros x y _ H _; Lqa.lra|].
  apply C43_fails; [discriminate|]. intros x H1 H2. rewrite Qabs_neg by Lqa.lra. Lqa.lra.
Qed.

(** Outside of the documented use: for a function that decreases the search may fail although there is a solution. *)
Example C43_decreasing_example : exists f min max threshold x,
  min <= x /\ x <= max /\ f x == 0 /\ (forall y z, y <= z -> f z <= f y)
  /\ (forall y z, Qabs (f y - f z) <= Qabs (y - z))
  /\ binary_search f min max threshold = None.
Proof.
  exists (fun y => (1 # 4) - y), 0, 1, (1 # 10), (1 # 4).
  split; [discriminate|]. split; [discriminate|]. split; [reflexivity|]. split; [intros y z H; Lqa.lra|].
  split; [|vm_compute; reflexivity].
  intros y z. setoid_replace ((1 # 4) - y - ((1 # 4) - z)) with (-(y - z)) by ring. rewrite Qabs_opp. apply Qle_refl.
Qed.

Local Open Scope R_scope.

(** C50. The formula for the age is the solution of the Friedmann equation that begins
    with time 0 at scale factor 0. *)
Theorem C50_friedmann : forall c, 0 < omega_0 c -> 0 < omega_lambda c ->
  time c 0 = 0 /\ solves_friedmann (omega_0 c) (omega_lambda c) (time c).
Proof. exact time_age. Qed.
Print Assumptions C50_friedmann.

(** Time differences add up and grow with the later scale factor. *)
Theorem C50_additive : forall c a0 a1 a2 h, Rabs (omega_lambda c + omega_0 c - 1) <= 1 / 100 ->
  exists t1 t2 t3, time_difference c a0 a1 h = Some t1 /\ time_difference c a1 a2 h = Some t2
    /\ time_difference c a0 a2 h = Some t3 /\ t1 + t2 = t3.
Proof. exact time_difference_add. Qed.
Print Assumptions C50_additive.

Theorem C50_increasing : forall c a x y h, 0 < omega_0 c -> 0 < omega_lambda c -> 0 < h ->
  Rabs (omega_lambda c + omega_0 c - 1) <= 1 / 100 -> 0 <= x -> x < y ->
  exists t1 t2, time_difference c a x h = Some t1 /\ time_difference c a y h = Some t2 /\ t1 < t2.
Proof. exact time_difference_mono. Qed.
Print Assumptions C50_increasing.

(** The scale factor after a given time is right to 100 years, ... *)
Theorem C50_scalefactor_sound : forall c h a delta g,
  scalefactor_after c a h delta = Some g ->
  0 <= g <= 1 /\ exists t, time_difference c a g h = Some t /\ Rabs (t - delta) <= hundred_years.
Proof. exact scalefactor_sound. Qed.
Print Assumptions C50_scalefactor_sound.

(** ... and the search cannot fail if a scale factor up to today has that time. *)
Theorem C50_scalefactor_complete : forall c, 0 < omega_0 c -> 0 < omega_lambda c ->
  forall h, 0 < h -> forall a delta a1, 1 / 1000000 <= sqrt (omega_0 c) * h ->
  0 <= a1 <= 1 -> time_difference c a a1 h = Some delta ->
  exists g, scalefactor_after c a h delta = Some g.
Proof. exact scalefactor_complete. Qed.
Print Assumptions C50_scalefactor_complete.

(** Times after today or before the beginning panic. *)
Theorem C50_outside : forall c, 0 < omega_0 c -> 0 < omega_lambda c -> forall h, 0 < h ->
  forall a delta,
  (exists t, time_difference c a 1 h = Some t /\ t + hundred_years < delta)
  \/ (exists t, time_difference c a 0 h = Some t /\ delta < t - hundred_years) ->
  scalefactor_after c a h delta = None.
Proof. exact scalefactor_outside. Qed.
Print Assumptions C50_outside.

(** The cosmology of the tests in the repository meets the hypotheses. *)
Definition ex_cosmology : cosmology_params := CosmologyParams (308983 / 1000000) (6911 / 10000).
Example C50_example :
  0 < omega_0 ex_cosmology /\ 0 < omega_lambda ex_cosmology
  /\ Rabs (omega_lambda ex_cosmology + omega_0 ex_cosmology - 1) <= 1 / 100
  /\ 1 / 1000000 <= sqrt (omega_0 ex_cosmology) * (6774 / 10000)
  /\ exists delta, time_difference ex_cosmology (1 / 10) (1 / 2) (6774 / 10000) = Some delta.
Proof.
  unfold ex_cosmology. cbn [omega_0 omega_lambda]. split; [lra|]. split; [lra|].
  assert (F : Rabs (6911 / 10000 + 308983 / 1000000 - 1) <= 1 / 100) by (unfold Rabs; destruct (Rcase_abs _); lra).
  split; [exact F|]. split.
  - assert (S : 1 / 2 <= sqrt (308983 / 1000000)).
    { rewrite <- (sqrt_square (1 / 2)) by lra. apply sqrt_le_1_alt. lra. }
    lra.
  - unfold time_difference. cbn [omega_0 omega_lambda]. destruct (Rgt_dec _ _) as [G|_]; [lra|]. eexists. reflexivity.
Qed.
