(** Proofs about the rates of the chemistry. *)
From Coq Require Import Reals Lra Psatz.
From Coquelicot Require Import Coquelicot.
From Verif Require Import HydrogenRates_Model HydrogenRates_Spec.
Open Scope R_scope.

(** * Derivatives *)

Lemma sqrt_sq t : 0 <= t -> sqrt t * sqrt t = t.
Proof. apply sqrt_sqrt. Qed.

Lemma sqrt_scaled t : 0 < t -> sqrt (1 / 100000 * t) = sqrt (t / 100000).
Proof. intros H. f_equal. field. Qed.

Lemma sqrt_cube t : 0 < t -> sqrt (t ^ 3) = t * sqrt t.
Proof.
  intros H. replace (t ^ 3) with ((t * t) * t) by ring.
  rewrite sqrt_mult; [|nra|lra]. rewrite sqrt_square; lra.
Qed.

Lemma is_derive_sqrt t : 0 < t -> is_derive sqrt t (1 / (2 * sqrt t)).
Proof.
  intros H. pose proof (sqrt_lt_R0 _ H) as S.
  auto_derive; [exact H|]. field. lra.
Qed.

Lemma is_derive_scaled t : 0 < t ->
  is_derive (fun t => sqrt (t / 100000)) t (1 / 100000 / (2 * sqrt (t / 100000))).
Proof.
  intros H. assert (P : 0 < t / 100000) by lra.
  pose proof (sqrt_lt_R0 _ P) as S.
  auto_derive; [exact P|]. unfold Rdiv. field. unfold Rdiv in S. lra.
Qed.

Lemma collision_fit_derive : derivative_of collision_fit collision_fit_derivative.
Proof.
  intros t H. apply is_derive_Reals.
  unfold collision_fit, collision_fit_derivative.
  rewrite sqrt_scaled, sqrt_cube by exact H.
  assert (P : 0 < t / 100000) by lra.
  pose proof (sqrt_lt_R0 _ P) as S1. pose proof (sqrt_lt_R0 _ H) as S2.
  pose proof (sqrt_sq (t / 100000) ltac:(lra)) as Q1.
  pose proof (sqrt_sq t ltac:(lra)) as Q2.
  auto_derive.
  - unfold Rdiv in *. repeat split; lra.
  - unfold Rdiv in *.
    set (u := sqrt (t * / 100000)) in *. set (v := sqrt t) in *.
    set (e := exp _). 
    clearbody u v e. assert (K : / 100000 = u * u * / (v * v)).
    { rewrite Q1, Q2. field. lra. }
    rewrite K, <- Q2. field. repeat split; lra.
Qed.

Lemma excitation_derive :
  derivative_of excitation_cooling excitation_cooling_derivative.
Proof.
  intros t H. apply is_derive_Reals.
  unfold excitation_cooling, excitation_cooling_derivative.
  rewrite sqrt_scaled by exact H.
  assert (P : 0 < t / 100000) by lra.
  pose proof (sqrt_lt_R0 _ P) as S1.
  pose proof (sqrt_sq (t / 100000) ltac:(lra)) as Q1.
  set (c := 75 / 10 ^ 20). clearbody c.
  auto_derive.
  - unfold Rdiv in *. repeat split; lra.
  - unfold Rdiv in *.
    set (u := sqrt (t * / 100000)) in *. set (e := exp _). clearbody u e.
    assert (K : / 100000 = u * u * / t). { rewrite Q1. field. lra. }
    rewrite K. field. repeat split; lra.
Qed.

Lemma bremsstrahlung_derive :
  derivative_of bremsstrahlung_cooling bremsstrahlung_cooling_derivative.
Proof.
  intros t H. apply is_derive_Reals.
  unfold bremsstrahlung_cooling, bremsstrahlung_cooling_derivative.
  set (c := 142 / 10 ^ 29). clearbody c.
  pose proof (sqrt_lt_R0 _ H) as S. auto_derive; [exact H|]. field. lra.
Qed.

Lemma compton_derive a :
  derivative_of (compton_cooling a) (compton_cooling_derivative a).
Proof.
  intros t H. apply is_derive_Reals.
  unfold compton_cooling, compton_cooling_derivative.
  set (c := 1017 / 10 ^ 40). set (x := 2727 / 1000 / a). clearbody c x.
  auto_derive; [exact I|]. ring.
Qed.

Lemma scaled_derive c f g : derivative_of f g ->
  derivative_of (fun t => c * f t) (fun t => c * g t).
Proof.
  intros D t H. apply (derivable_pt_lim_scal f c t (g t)). apply D, H.
Qed.

Lemma ionization_derive : derivative_of ionization ionization_derivative.
Proof. apply scaled_derive, collision_fit_derive. Qed.

Lemma ionization_cooling_derive :
  derivative_of ionization_cooling ionization_cooling_derivative.
Proof. apply scaled_derive, collision_fit_derive. Qed.

(** Powers *)

Lemma is_derive_power f t d c : 0 < f t -> is_derive f t d ->
  is_derive (fun t => Rpower (f t) c) t (c * d * Rpower (f t) c / f t).
Proof.
  intros P D. unfold Rpower.
  assert (O : is_derive (fun y => exp (c * ln y)) (f t)
                (c * / f t * exp (c * ln (f t)))).
  { auto_derive; [exact P|]. field. lra. }
  pose proof (is_derive_comp (fun y => exp (c * ln y)) f t _ _ O D) as E.
  change (scal d (c * / f t * exp (c * ln (f t))))
    with (d * (c * / f t * exp (c * ln (f t)))) in E.
  replace (c * d * exp (c * ln (f t)) / f t)
    with (d * (c * / f t * exp (c * ln (f t)))) by (field; lra).
  exact E.
Qed.

Lemma power_pos a b : 0 < Rpower a b.
Proof. apply exp_pos. Qed.

Lemma power_minus_one b c : 0 < b -> Rpower b (- c - 1) = / (Rpower b c * b).
Proof.
  intros H. replace (- c - 1) with (- (c + 1)) by ring.
  rewrite Rpower_Ropp, Rpower_plus, Rpower_1 by exact H. reflexivity.
Qed.

Lemma power_three_halves b : 0 < b -> sqrt b = Rpower b (15 / 10) / b.
Proof.
  intros H. replace (15 / 10) with (/ 2 + 1) by field.
  rewrite Rpower_plus, Rpower_1, Rpower_sqrt by exact H. field. lra.
Qed.

(** The inner function [1 + (k / t) ^ c]. *)
Lemma is_derive_inner k c t : 0 < k -> 0 < t ->
  is_derive (fun t => 1 + Rpower (k / t) c) t (- c * Rpower (k / t) c / t).
Proof.
  intros K H.
  assert (P : 0 < k / t) by (apply Rdiv_lt_0_compat; assumption).
  assert (D : is_derive (fun t => k / t) t (- k / t ^ 2)).
  { auto_derive; [lra|]. field. lra. }
  pose proof (is_derive_power (fun t => k / t) t _ c P D) as Q. cbv beta in Q.
  replace (- c * Rpower (k / t) c / t)
    with (0 + c * (- k / t ^ 2) * Rpower (k / t) c / (k / t)) by (field; lra).
  apply (is_derive_plus (V := R_NormedModule) (fun _ => 1)); [|exact Q].
  auto_derive; [exact I|reflexivity].
Qed.

Lemma is_derive_eq (f : R -> R) (t d d' : R) :
  is_derive f t d -> d = d' -> is_derive f t d'.
Proof. intros D <-. exact D. Qed.

(** A function divided by a power of the inner function. *)
Lemma is_derive_fit A A' K c e t : 0 < K -> 0 < t -> is_derive A t A' ->
  is_derive (fun t => A t / Rpower (1 + Rpower (K / t) c) e) t
    ((A' + A t * e * c * Rpower (K / t) c / (t * (1 + Rpower (K / t) c)))
     / Rpower (1 + Rpower (K / t) c) e).
Proof.
  intros HK H DA.
  pose proof (power_pos (K / t) c) as Q.
  pose proof (power_pos (1 + Rpower (K / t) c) e) as Q2.
  assert (D2 := is_derive_inner K c t HK H).
  assert (P : 0 < 1 + Rpower (K / t) c) by lra.
  assert (D3 := is_derive_power (fun t => 1 + Rpower (K / t) c) t _ e P D2).
  cbv beta in D3.
  pose proof (is_derive_div A _ t _ _ DA D3 (Rgt_not_eq _ _ Q2)) as D.
  apply (is_derive_eq _ _ _ _ D).
  cbv beta. set (b := Rpower (K / t) c) in *. set (q := Rpower (1 + b) e) in *.
  clearbody b q. field. repeat split; lra.
Qed.

(** Near a positive number the two ways to divide agree. *)
Lemma is_derive_positive (f g : R -> R) (t d : R) : 0 < t ->
  (forall s, 0 < s -> f s = g s) -> is_derive f t d -> is_derive g t d.
Proof.
  intros H E D. apply (is_derive_ext_loc f); [|exact D].
  exists (mkposreal t H). intros s Hs. apply E.
  unfold ball in Hs. simpl in Hs. unfold AbsRing_ball, abs, minus, plus, opp in Hs.
  simpl in Hs. apply Rabs_lt_between in Hs. lra.
Qed.

Lemma recombination_derive :
  derivative_of recombination recombination_derivative.
Proof.
  intros t H. apply is_derive_Reals.
  unfold recombination, recombination_derivative. cbv zeta.
  set (k := 2753 / 10 ^ 17). clearbody k.
  assert (P : 0 < 315614 / t) by (apply Rdiv_lt_0_compat; lra).
  rewrite power_three_halves by exact P.
  rewrite power_minus_one by (pose proof (power_pos (1 / (274 / 100) * (315614 / t)) (407 / 1000)); lra).
  replace (1 / (274 / 100) * (315614 / t)) with (315614 / (274 / 100) / t) by (field; lra).
  assert (D1 : is_derive (fun t => k * Rpower (315614 / t) (15 / 10)) t
     (k * (15 / 10 * (- 315614 / t ^ 2) * Rpower (315614 / t) (15 / 10) / (315614 / t)))).
  { apply is_derive_scal. apply (is_derive_power (fun t => 315614 / t)); [exact P|].
    auto_derive; [lra|]. field. lra. }
  apply (is_derive_positive (fun t => k * Rpower (315614 / t) (15 / 10)
     / Rpower (1 + Rpower (315614 / (274 / 100) / t) (407 / 1000)) (2242 / 1000))); [exact H| |].
  { intros s Hs. replace (315614 / (274 / 100) / s) with (315614 / s / (274 / 100)) by (field; lra).
    reflexivity. }
  pose proof (is_derive_fit _ _ (315614 / (274 / 100)) (407 / 1000) (2242 / 1000) t
    ltac:(lra) H D1) as D.
  apply (is_derive_eq _ _ _ _ D). cbv beta.
  pose proof (power_pos (315614 / (274 / 100) / t) (407 / 1000)) as Q.
  set (a := Rpower (315614 / t) (15 / 10)).
  set (b := Rpower (315614 / (274 / 100) / t) (407 / 1000)) in *.
  replace (b + 1) with (1 + b) by ring.
  pose proof (power_pos (1 + b) (2242 / 1000)) as Q2.
  set (q := Rpower (1 + b) (2242 / 1000)) in *.
  clearbody a b q. field. repeat split; lra.
Qed.

Lemma recombination_cooling_derive :
  derivative_of recombination_cooling recombination_cooling_derivative.
Proof.
  intros t H. apply is_derive_Reals.
  unfold recombination_cooling, recombination_cooling_derivative. cbv zeta.
  set (k := 3435 / 10 ^ 33). clearbody k.
  assert (P : 0 < 315614 / t) by (apply Rdiv_lt_0_compat; lra).
  replace (- 1 - 372 / 100) with (- (372 / 100) - 1) by ring.
  rewrite power_minus_one by (pose proof (power_pos (315614 / (225 / 100 * t)) (376 / 1000)); lra).
  replace (315614 / (225 / 100 * t)) with (315614 / (225 / 100) / t) by (field; lra).
  assert (D0 : is_derive (fun t => Rpower (315614 / t) (197 / 100)) t
     (197 / 100 * (- 315614 / t ^ 2) * Rpower (315614 / t) (197 / 100) / (315614 / t))).
  { apply (is_derive_power (fun t => 315614 / t)); [exact P|].
    auto_derive; [lra|]. field. lra. }
  assert (D1 : is_derive (fun t => k * t * Rpower (315614 / t) (197 / 100)) t
     (k * Rpower (315614 / t) (197 / 100)
      + k * t * (197 / 100 * (- 315614 / t ^ 2) * Rpower (315614 / t) (197 / 100) / (315614 / t)))).
  { assert (Dk : is_derive (fun t => k * t) t k) by (auto_derive; [exact I|ring]).
    apply is_derive_Reals. apply is_derive_Reals in D0. apply is_derive_Reals in Dk.
    exact (derivable_pt_lim_mult _ _ _ _ _ Dk D0). }
  apply (is_derive_positive (fun t => k * t * Rpower (315614 / t) (197 / 100)
     / Rpower (1 + Rpower (315614 / (225 / 100) / t) (376 / 1000)) (372 / 100))); [exact H| |].
  { intros s Hs. replace (315614 / (225 / 100) / s) with (315614 / s / (225 / 100)) by (field; lra).
    reflexivity. }
  pose proof (is_derive_fit _ _ (315614 / (225 / 100)) (376 / 1000) (372 / 100) t
    ltac:(lra) H D1) as D.
  apply (is_derive_eq _ _ _ _ D). cbv beta.
  pose proof (power_pos (315614 / (225 / 100) / t) (376 / 1000)) as Q.
  set (a := Rpower (315614 / t) (197 / 100)).
  set (b := Rpower (315614 / (225 / 100) / t) (376 / 1000)) in *.
  pose proof (power_pos (1 + b) (372 / 100)) as Q2.
  set (q := Rpower (1 + b) (372 / 100)) in *.
  clearbody a b q. field. repeat split; lra.
Qed.

(** * The whole cooling rate *)

Section Gas.
  Variables proton_mass boltzmann gamma sigma photon_energy rydberg : R.
  Notation cooling := (cooling_rate proton_mass).
  Notation d_cooling := (cooling_rate_derivative proton_mass).

  Definition at_temperature (s : solver) (t : R) : solver :=
    Solver (fraction s) t (density s) (volume s) (length s) (rate s) (scale_factor s).

  Lemma cooling_derive s : 0 < temperature s ->
    derivable_pt_lim (fun t => cooling (at_temperature s t)) (temperature s)
      (d_cooling s).
  Proof.
    intros H. unfold cooling_rate, cooling_rate_derivative, n_electron, n_ionized,
      n_neutral, n_hydrogen, at_temperature. simpl.
    set (ne := density s / proton_mass * fraction s).
    set (nn := density s / proton_mass * (1 - fraction s)).
    set (t := temperature s) in *.
    assert (M : forall f d c, derivable_pt_lim f t d ->
       derivable_pt_lim (fun x => f x * c) t (d * c)).
    { intros f d c D. apply is_derive_Reals. apply is_derive_Reals in D.
      apply (is_derive_ext (fun x => c * f x)); [intros; apply Rmult_comm|].
      rewrite Rmult_comm. apply is_derive_scal. exact D. }
    repeat apply (derivable_pt_lim_plus (fun x => _) (fun x => _)).
    - apply (M (fun x => (excitation_cooling x + ionization_cooling x) * ne)).
      apply (M (fun x => excitation_cooling x + ionization_cooling x)).
      apply (derivable_pt_lim_plus excitation_cooling ionization_cooling);
        [apply excitation_derive|apply ionization_cooling_derive]; exact H.
    - apply (M (fun x => recombination_cooling x * ne)). apply M.
      apply recombination_cooling_derive, H.
    - apply (M (fun x => bremsstrahlung_cooling x * ne)). apply M.
      apply bremsstrahlung_derive, H.
    - apply (M (compton_cooling (scale_factor s))). apply compton_derive, H.
  Qed.

  (** The temperature. *)
  Lemma temperature_step s timestep : 0 < temperature s ->
    density s <> 0 -> boltzmann <> 0 -> proton_mass <> 0 -> fraction s + 1 <> 0 ->
    let heat t := (gamma - 1) * proton_mass
        / (density s * boltzmann * (1 + fraction s))
        * (photoheating_rate proton_mass sigma photon_energy rydberg s timestep
           - cooling (at_temperature s t)) in
    exists d, derivable_pt_lim heat (temperature s) d
      /\ (1 - d * timestep <> 0 ->
          implicit_step (heat (temperature s)) d timestep
            (temperature_change proton_mass boltzmann gamma sigma photon_energy
               rydberg s timestep)).
  Proof.
    intros H Hd Hb Hp Hx heat.
    set (k := (gamma - 1) * proton_mass / (density s * boltzmann * (1 + fraction s))) in *.
    exists (k * - d_cooling s). split.
    - apply (derivable_pt_lim_scal (fun t => photoheating_rate _ _ _ _ s timestep - cooling (at_temperature s t))).
      replace (- d_cooling s) with (0 - d_cooling s) by ring.
      apply (derivable_pt_lim_minus (fun _ => _)); [apply derivable_pt_lim_const|].
      apply cooling_derive, H.
    - intros N. unfold implicit_step, temperature_change, heat. cbv zeta.
      assert (E : forall k' m, k' * m = k ->
        k' * m * (photoheating_rate proton_mass sigma photon_energy rydberg s timestep - cooling s)
          * timestep / (1 - k' * m * - d_cooling s * timestep)
        = timestep * (k * (photoheating_rate proton_mass sigma photon_energy rydberg s timestep - cooling s)
           + k * - d_cooling s * (k' * m * (photoheating_rate proton_mass sigma photon_energy rydberg s timestep - cooling s)
          * timestep / (1 - k' * m * - d_cooling s * timestep)))).
      { intros k' m ->. field. exact N. }
      replace (at_temperature s (temperature s)) with s by (destruct s; reflexivity).
      apply E. unfold mu, k. field. repeat split; try assumption. rewrite Rplus_comm. assumption.
  Qed.

  (** The ionized fraction. *)
  Lemma fraction_step s timestep : 0 < temperature s ->
    0 < 1 + fraction s -> 
    let photo := photoionization_rate proton_mass sigma s timestep in
    let n := density s / proton_mass in
    exists j,
      (forall temp, (forall y, 0 < 1 + y ->
           same_energy (fraction s) (temperature s) y (temp y)) ->
         derivable_pt_lim
           (fun y => balance recombination ionization n photo y (temp y))
           (fraction s) j)
      /\ (1 - j * timestep <> 0 ->
          implicit_step
            (balance recombination ionization n photo (fraction s) (temperature s))
            j timestep (ionized_fraction_change proton_mass sigma s timestep)).
  Proof.
    intros Ht Hx photo n.
    set (x := fraction s) in *. set (t := temperature s) in *.
    set (alpha := recombination t). set (beta := ionization t).
    set (dalpha := recombination_derivative t). set (dbeta := ionization_derivative t).
    set (ne := n * x).
    set (c := beta * ne + photo). set (d := alpha * ne).
    set (dcdx := n * beta - ne * t * (1 / (x + 1)) * 1 * dbeta).
    set (dddx := n * alpha - ne * t * (1 / (x + 1)) * 1 * dalpha).
    exists (dcdx - (c + d) - x * (dcdx + dddx)). split.
    - intros temp Htemp.
      apply is_derive_Reals.
      set (tt := fun y => (1 + x) * t / (1 + y)).
      assert (E : forall y, 0 < 1 + y -> temp y = tt y).
      { intros y Hy. specialize (Htemp y Hy). unfold same_energy in Htemp. unfold tt.
        rewrite <- Htemp. field. lra. }
      apply (is_derive_ext_loc (fun y => balance recombination ionization n photo y (tt y))).
      { exists (mkposreal (1 + x) Hx). intros y Hy. rewrite E; [reflexivity|].
        unfold ball in Hy. simpl in Hy. unfold AbsRing_ball, abs, minus, plus, opp in Hy.
        simpl in Hy. apply Rabs_lt_between in Hy. lra. }
      assert (Et : tt x = t) by (unfold tt; field; lra).
      assert (Dt : is_derive tt x (- t / (1 + x))).
      { unfold tt. auto_derive; [lra|]. field. lra. }
      assert (Da : is_derive (fun y => recombination (tt y)) x (- t / (1 + x) * dalpha)).
      { apply (is_derive_comp recombination tt); [|exact Dt]. apply is_derive_Reals.
        rewrite Et. apply recombination_derive, Ht. }
      assert (Db : is_derive (fun y => ionization (tt y)) x (- t / (1 + x) * dbeta)).
      { apply (is_derive_comp ionization tt); [|exact Dt]. apply is_derive_Reals.
        rewrite Et. apply ionization_derive, Ht. }
      unfold balance.
      apply is_derive_Reals in Da. apply is_derive_Reals in Db.
      apply is_derive_Reals.
      assert (Dn : derivable_pt_lim (fun y => n * y) x n).
      { apply is_derive_Reals. auto_derive; [exact I|ring]. }
      assert (D1 : derivable_pt_lim (fun y => 1 - y) x (-1)).
      { apply is_derive_Reals. auto_derive; [exact I|ring]. }
      assert (D0 : derivable_pt_lim (fun y => y) x 1) by apply derivable_pt_lim_id.
      assert (Dp : derivable_pt_lim (fun y => photo) x 0) by apply derivable_pt_lim_const.
      pose proof (derivable_pt_lim_mult _ _ _ _ _ Db Dn) as M1.
      pose proof (derivable_pt_lim_plus _ _ _ _ _ M1 Dp) as M2.
      pose proof (derivable_pt_lim_mult _ _ _ _ _ M2 D1) as M3.
      pose proof (derivable_pt_lim_mult _ _ _ _ _ Da Dn) as M4.
      pose proof (derivable_pt_lim_mult _ _ _ _ _ M4 D0) as M5.
      pose proof (derivable_pt_lim_minus _ _ _ _ _ M3 M5) as M6.
      match type of M6 with derivable_pt_lim _ _ ?v =>
        replace (dcdx - (c + d) - x * (dcdx + dddx)) with v; [exact M6|] end.
      unfold mult_fct, plus_fct. rewrite Et.
      fold alpha beta. unfold dcdx, dddx, c, d, ne. field. lra.
    - intros N. unfold implicit_step, ionized_fraction_change. cbv zeta.
      unfold n_electron, n_ionized, n_hydrogen, mu, hydrogen_mass_fraction.
      fold x t n. fold ne alpha beta dalpha dbeta photo. fold c d dcdx dddx.
      set (j := dcdx - (c + d) - x * (dcdx + dddx)) in *.
      assert (B : balance recombination ionization n photo x t = c - x * (c + d)).
      { unfold balance. fold alpha beta ne. unfold c, d. ring. }
      rewrite B. clearbody j c d. field. exact N.
  Qed.

  (** The reported rates. *)
  Lemma reported_balance year timestep s : year <> 0 -> timestep <> 0 ->
    reported_photoionization proton_mass sigma year s * (1 - fraction s)
    + reported_ionization proton_mass s - reported_recombination proton_mass s
    = balance recombination ionization (density s / proton_mass)
        (photoionization_rate proton_mass sigma s timestep)
        (fraction s) (temperature s).
  Proof.
    intros Hy Ht. unfold reported_photoionization, reported_ionization,
      reported_recombination, balance, n_electron, n_ionized, n_hydrogen.
    assert (E : photoionization_rate proton_mass sigma s year
                = photoionization_rate proton_mass sigma s timestep).
    { unfold photoionization_rate, newly_ionized. cbv zeta. unfold Rdiv.
      set (a := 1 - exp _). set (b := / (_ * volume s)).
      field. split; assumption. }
    rewrite E. ring.
  Qed.

  Lemma reported_heating_rate year timestep s : year <> 0 -> timestep <> 0 ->
    reported_heating proton_mass sigma photon_energy rydberg year s
    = photoheating_rate proton_mass sigma photon_energy rydberg s timestep - cooling s.
  Proof.
    intros Hy Ht. unfold reported_heating.
    unfold photoheating_rate, newly_ionized. cbv zeta. unfold Rdiv.
    set (a := 1 - exp _). set (b := / (volume s)). field. split; assumption.
  Qed.

  (** Photons *)

  Lemma photons_absorbed threshold s timestep : threshold <= rate s ->
    newly_ionized proton_mass sigma s timestep
    = timestep * (rate s - outgoing_rate proton_mass sigma threshold s).
  Proof.
    intros H. unfold newly_ionized, outgoing_rate. cbv zeta.
    destruct (Rlt_dec (rate s) threshold) as [C|_]; [lra|]. ring.
  Qed.

  Lemma photons_ionize s timestep : timestep <> 0 -> volume s <> 0 ->
    n_neutral proton_mass s <> 0 ->
    photoionization_rate proton_mass sigma s timestep
      * (n_neutral proton_mass s * volume s) * timestep
    = newly_ionized proton_mass sigma s timestep
    /\ photoheating_rate proton_mass sigma photon_energy rydberg s timestep
       * volume s * timestep
       = newly_ionized proton_mass sigma s timestep * (photon_energy - rydberg).
  Proof.
    intros Ht Hv Hn. unfold photoionization_rate, photoheating_rate. cbv zeta.
    split; field; auto.
  Qed.

  Lemma exp_tau x : 0 <= x -> 0 <= 1 - exp (- x) <= x /\ 1 - exp (- x) < 1.
  Proof.
    intros H. pose proof (exp_pos (- x)). split; [|lra]. split.
    - destruct H as [H| <-]; [|rewrite Ropp_0, exp_0; lra].
      assert (exp (- x) < exp 0) by (apply exp_increasing; lra).
      rewrite exp_0 in *. lra.
    - destruct H as [H| <-]; [|rewrite Ropp_0, exp_0; lra].
      pose proof (exp_ineq1 (- x) ltac:(lra)). lra.
  Qed.

  Lemma photoionization_bounds s timestep : 0 < proton_mass -> 0 < density s ->
    0 <= fraction s < 1 -> 0 < sigma -> 0 < length s -> 0 < volume s ->
    0 <= rate s -> 0 < timestep ->
    0 <= photoionization_rate proton_mass sigma s timestep
      <= rate s * sigma * length s / volume s
    /\ 0 <= newly_ionized proton_mass sigma s timestep <= timestep * rate s.
  Proof.
    intros Hp Hd Hx Hs Hl Hv Hr Ht.
    assert (N : 0 < n_neutral proton_mass s).
    { unfold n_neutral, n_hydrogen. apply Rmult_lt_0_compat; [|lra].
      apply Rdiv_lt_0_compat; assumption. }
    set (nn := n_neutral proton_mass s) in *.
    assert (T : 0 <= nn * sigma * length s).
    { apply Rmult_le_pos; [apply Rmult_le_pos|]; lra. }
    destruct (exp_tau _ T) as [[B1 B2] B3].
    unfold photoionization_rate, newly_ionized. cbv zeta. fold nn.
    replace (- nn * sigma * length s) with (- (nn * sigma * length s)) by ring.
    set (f := 1 - exp (- (nn * sigma * length s))) in *.
    assert (E : timestep * rate s * f / (nn * volume s) / timestep
                = rate s * f / (nn * volume s)) by (field; lra).
    rewrite E.
    assert (V : 0 < nn * volume s) by (apply Rmult_lt_0_compat; assumption).
    split; [split|split].
    - apply Rmult_le_pos; [apply Rmult_le_pos; lra|]. left. apply Rinv_0_lt_compat, V.
    - replace (rate s * sigma * length s / volume s)
        with (rate s * (nn * sigma * length s) / (nn * volume s)) by (field; lra).
      apply Rmult_le_compat_r; [left; apply Rinv_0_lt_compat, V|].
      apply Rmult_le_compat_l; assumption.
    - apply Rmult_le_pos; [apply Rmult_le_pos; lra|lra].
    - rewrite <- (Rmult_1_r (timestep * rate s)) at 2.
      apply Rmult_le_compat_l; [apply Rmult_le_pos; lra|lra].
  Qed.

  (** Cooling is not negative above the temperature of the background. *)
  Lemma cooling_nonnegative s : 0 < temperature s -> 0 < proton_mass ->
    0 <= density s -> 0 <= fraction s <= 1 ->
    2727 / 1000 / scale_factor s <= temperature s -> 0 <= cooling s.
  Proof.
    intros Ht Hp Hd Hx Hc.
    unfold cooling_rate. cbv zeta.
    assert (Nh : 0 <= n_hydrogen proton_mass s).
    { unfold n_hydrogen. apply Rmult_le_pos; [exact Hd|]. left. apply Rinv_0_lt_compat, Hp. }
    assert (Ni : 0 <= n_ionized proton_mass s) by (apply Rmult_le_pos; lra).
    assert (Nn : 0 <= n_neutral proton_mass s) by (apply Rmult_le_pos; lra).
    unfold n_electron. set (t := temperature s) in *.
    pose proof (sqrt_pos t) as S1. pose proof (sqrt_pos (t / 100000)) as S2.
    assert (A1 : 0 <= excitation_cooling t).
    { unfold excitation_cooling. apply Rmult_le_pos; [|left; apply exp_pos].
      apply Rmult_le_pos; [lra|]. left. apply Rinv_0_lt_compat. lra. }
    assert (A2 : 0 <= ionization_cooling t).
    { unfold ionization_cooling, collision_fit. apply Rmult_le_pos; [lra|].
      apply Rmult_le_pos; [|left; apply exp_pos].
      apply Rmult_le_pos; [lra|]. left. apply Rinv_0_lt_compat. lra. }
    assert (A3 : 0 <= recombination_cooling t).
    { unfold recombination_cooling. cbv zeta. apply Rmult_le_pos.
      - apply Rmult_le_pos; [apply Rmult_le_pos; lra|left; apply power_pos].
      - left. apply Rinv_0_lt_compat, power_pos. }
    assert (A4 : 0 <= bremsstrahlung_cooling t).
    { unfold bremsstrahlung_cooling. apply Rmult_le_pos; lra. }
    assert (A5 : 0 <= compton_cooling (scale_factor s) t).
    { unfold compton_cooling. cbv zeta. apply Rmult_le_pos; [|lra].
      apply Rmult_le_pos; [lra|].
      replace ((2727 / 1000 / scale_factor s) ^ 4)
        with (((2727 / 1000 / scale_factor s) ^ 2) * ((2727 / 1000 / scale_factor s) ^ 2)) by ring.
      apply Rle_0_sqr. }
    repeat first [assumption | apply Rplus_le_le_0_compat | apply Rmult_le_pos].
  Qed.
End Gas.

(** * Witnesses *)

(** Neutral gas with optical depth 1. *)
Definition witness : solver := Solver 0 1 1 1 1 1 1.

Lemma witness_photo y : 0 < 1 - y ->
  photoionization_rate 1 1 (Solver y 1 1 1 1 1 1) 1 = (1 - exp (- (1 - y))) / (1 - y).
Proof.
  intros H. unfold photoionization_rate, newly_ionized, n_neutral, n_hydrogen. simpl.
  replace (- (1 / 1 * (1 - y)) * 1 * 1) with (- (1 - y)) by field. field. lra.
Qed.

Lemma exp_minus_one : 0 < exp (-1) < / 2.
Proof.
  split; [apply exp_pos|]. assert (E : exp (-1) = / exp 1).
  { rewrite <- exp_Ropp. f_equal. }
  rewrite E.
  pose proof (exp_ineq1 1 ltac:(lra)). apply Rinv_lt_contravar; lra.
Qed.

Lemma ionization_small : 0 <= ionization 1 < 1.
Proof.
  unfold ionization, collision_fit. rewrite sqrt_1.
  pose proof (sqrt_pos (1 / 100000)) as S.
  assert (E : 0 < exp (- (1578091 / 10) / 1) < 1).
  { split; [apply exp_pos|].
    assert (X : exp (- (1578091 / 10) / 1) < exp 0) by (apply exp_increasing; lra).
    rewrite exp_0 in X. exact X. }
  assert (I : 0 < 1 / (1 + sqrt (1 / 100000)) <= 1).
  { split; [apply Rdiv_lt_0_compat; lra|]. apply Rmult_le_reg_r with (1 + sqrt (1 / 100000)); [lra|].
    unfold Rdiv at 1. rewrite Rmult_assoc, Rinv_l by lra. lra. }
  set (a := 1 / (1 + sqrt (1 / 100000))) in *. set (e := exp _) in *. clearbody a e.
  assert (0 < a * e < 1).
  { split; [apply Rmult_lt_0_compat; lra|].
    apply Rle_lt_trans with (1 * e); [apply Rmult_le_compat_r; lra|lra]. }
  lra.
Qed.

Lemma witness_derivative : exists j d,
  derivable_pt_lim (fun y => balance recombination ionization 1
     (photoionization_rate 1 1 witness 1) y (1 / (1 + y))) 0 j
  /\ derivable_pt_lim (fun y => balance recombination ionization 1
     (photoionization_rate 1 1 (Solver y 1 1 1 1 1 1) 1) y (1 / (1 + y))) 0 d
  /\ 1 - j * 1 <> 0 /\ j <> d
  /\ implicit_step (balance recombination ionization 1
       (photoionization_rate 1 1 witness 1) 0 1) j 1
       (ionized_fraction_change 1 1 witness 1)
  /\ ionized_fraction_change 1 1 witness 1 <> 0.
Proof.
  destruct (fraction_step 1 1 witness 1) as (j & D & S); [simpl; lra|simpl; lra|].
  simpl in D, S. replace (1 / 1) with 1 in D, S by field.
  specialize (D (fun y => 1 / (1 + y))).
  assert (Dj : derivable_pt_lim (fun y => balance recombination ionization 1
     (photoionization_rate 1 1 witness 1) y (1 / (1 + y))) 0 j).
  { apply D. intros y Hy. unfold same_energy. field. lra. }
  set (photo := photoionization_rate 1 1 witness 1) in *.
  pose proof exp_minus_one as E1.
  assert (Ep : photo = 1 - exp (-1)).
  { unfold photo, witness. rewrite witness_photo by lra.
    replace (- (1 - 0)) with (-1) by ring. field. }
  pose proof ionization_small as B.
  (* the value of [j] *)
  assert (Vj : j = ionization 1 - photo).
  { assert (Db : exists v, derivable_pt_lim (fun y => ionization (1 / (1 + y))) 0 v).
    { exists (ionization_derivative 1 * -1).
      apply (derivable_pt_lim_comp (fun y => 1 / (1 + y)) ionization 0 (-1)).
      - apply is_derive_Reals. auto_derive; [lra|]. field.
      - replace (1 / (1 + 0)) with 1 by field. apply ionization_derive. lra. }
    assert (Da : exists v, derivable_pt_lim (fun y => recombination (1 / (1 + y))) 0 v).
    { exists (recombination_derivative 1 * -1).
      apply (derivable_pt_lim_comp (fun y => 1 / (1 + y)) recombination 0 (-1)).
      - apply is_derive_Reals. auto_derive; [lra|]. field.
      - replace (1 / (1 + 0)) with 1 by field. apply recombination_derive. lra. }
    destruct Db as (vb & Db). destruct Da as (va & Da).
    assert (Dn : derivable_pt_lim (fun y => 1 * y) 0 1).
    { apply is_derive_Reals. auto_derive; [exact I|ring]. }
    assert (D1 : derivable_pt_lim (fun y => 1 - y) 0 (-1)).
    { apply is_derive_Reals. auto_derive; [exact I|ring]. }
    assert (D0 : derivable_pt_lim (fun y => y) 0 1) by apply derivable_pt_lim_id.
    assert (Dp : derivable_pt_lim (fun y => photo) 0 0) by apply derivable_pt_lim_const.
    pose proof (derivable_pt_lim_mult _ _ _ _ _ Db Dn) as M1.
    pose proof (derivable_pt_lim_plus _ _ _ _ _ M1 Dp) as M2.
    pose proof (derivable_pt_lim_mult _ _ _ _ _ M2 D1) as M3.
    pose proof (derivable_pt_lim_mult _ _ _ _ _ Da Dn) as M4.
    pose proof (derivable_pt_lim_mult _ _ _ _ _ M4 D0) as M5.
    pose proof (derivable_pt_lim_minus _ _ _ _ _ M3 M5) as M6.
    pose proof (uniqueness_limite _ _ _ _ Dj M6) as U. rewrite U.
    unfold mult_fct, plus_fct. replace (1 / (1 + 0)) with 1 by field. ring. }
  assert (Hj : 1 - j * 1 <> 0) by lra.
  specialize (S Hj).
  exists j, (j + (1 - 2 * exp (-1))). split; [exact Dj|]. split; [|split; [exact Hj|split; [lra|split; [exact S|]]]].
  - assert (X : derivable_pt_lim (fun y => ((1 - exp (- (1 - y))) / (1 - y) - photo) * (1 - y)) 0 (1 - 2 * exp (-1))).
    { apply is_derive_Reals. auto_derive; [lra|]. rewrite Ep.
      replace (- (1 - 0)) with (-1) by ring. 
      replace (- (1 + - 0)) with (-1) by ring. field. }
    pose proof (derivable_pt_lim_plus _ _ _ _ _ Dj X) as Y.
    apply is_derive_Reals. apply is_derive_Reals in Y.
    apply (is_derive_ext_loc (fun y => balance recombination ionization 1 photo y (1 / (1 + y))
       + ((1 - exp (- (1 - y))) / (1 - y) - photo) * (1 - y))); [|exact Y].
    exists (mkposreal 1 Rlt_0_1). intros y Hy.
    unfold ball in Hy. simpl in Hy. unfold AbsRing_ball, abs, minus, plus, opp in Hy.
    simpl in Hy. apply Rabs_lt_between in Hy.
    rewrite witness_photo by lra. unfold balance.
    match goal with |- ?a = ?b => change (@eq R a b) end. field. lra.
  - intros Z. unfold implicit_step in S. rewrite Z in S. unfold balance in S. lra.
Qed.

(** Below the threshold photons are lost. *)
Lemma photons_lost : exists threshold s,
  0 < rate s /\ newly_ionized 1 1 s 1 < 1 * (rate s - outgoing_rate 1 1 threshold s).
Proof.
  exists 2, witness. split; [simpl; lra|].
  unfold newly_ionized, outgoing_rate, n_neutral, n_hydrogen, witness. simpl.
  destruct (Rlt_dec 1 2) as [_|C]; [|lra].
  pose proof (exp_pos (- (1 / 1 * (1 - 0)) * 1 * 1)). lra.
Qed.
