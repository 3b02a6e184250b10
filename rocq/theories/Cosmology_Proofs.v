(** Proofs about the search and the cosmology. *)
From Coq Require Import QArith Qabs Qpower Lqa Lia Reals Lra Psatz.
From Verif Require Import Cosmology_Model Cosmology_Spec.

(** ** The search with rational numbers *)

Section SearchQ.
  Local Open Scope Q_scope.
  Variable f : Q -> Q.
  Variable threshold : Q.

  Lemma judge_q_spec x :
    match judge_q f threshold x with
    | Close => Qabs (f x) <= threshold
    | Below => threshold < Qabs (f x) /\ f x < 0
    | Above => threshold < Qabs (f x) /\ 0 <= f x
    end.
  Proof.
    unfold judge_q. destruct (Qle_bool (Qabs (f x)) threshold) eqn:E1.
    - apply Qle_bool_iff. exact E1.
    - assert (H : threshold < Qabs (f x)).
      { apply Qnot_le_lt. intro F. apply Qle_bool_iff in F. congruence. }
      destruct (Qle_bool 0 (f x)) eqn:E2.
      + split; [exact H|]. apply Qle_bool_iff. exact E2.
      + split; [exact H|]. apply Qnot_le_lt. intro F. apply Qle_bool_iff in F. congruence.
  Qed.

  Lemma mid_q_bounds a b : a <= b -> a <= mid_q a b /\ mid_q a b <= b.
  Proof.
    intro H. unfold mid_q. split.
    - apply Qle_shift_div_l; [reflexivity|]. Lqa.lra.
    - apply Qle_shift_div_r; [reflexivity|]. Lqa.lra.
  Qed.

  Lemma search_q_sound fuel : forall min max g, min <= max ->
    depth_limited_binary_search mid_q (judge_q f threshold) fuel min max = Some g ->
    Qabs (f g) <= threshold /\ min <= g /\ g <= max.
  Proof.
    induction fuel as [|fuel IH]; intros min max g H E; [discriminate E|].
    cbn [depth_limited_binary_search] in E. assert (J := judge_q_spec (mid_q min max)).
    destruct (mid_q_bounds min max H) as [B1 B2].
    destruct (judge_q f threshold (mid_q min max)).
    - injection E as <-. auto.
    - destruct (IH _ _ _ B2 E) as (A & B & C). split; [exact A|]. split; [|exact C]. eapply Qle_trans; eassumption.
    - destruct (IH _ _ _ B1 E) as (A & B & C). split; [exact A|]. split; [exact B|]. eapply Qle_trans; eassumption.
  Qed.

  Lemma search_q_complete fuel : forall min max lo hi, nondecreasing f min max ->
    min <= lo -> lo <= hi -> hi <= max ->
    (forall x, lo <= x -> x <= hi -> Qabs (f x) <= threshold) ->
    max - min < 2 ^ (Z.of_nat fuel) * (hi - lo) ->
    exists g, depth_limited_binary_search mid_q (judge_q f threshold) fuel min max = Some g.
  Proof.
    induction fuel as [|fuel IH]; intros min max lo hi Hm H1 H2 H3 Hc Hw.
    - exfalso. cbn in Hw. Lqa.lra.
    - cbn [depth_limited_binary_search]. assert (J := judge_q_spec (mid_q min max)).
      assert (Hmm : min <= max) by Lqa.lra.
      destruct (mid_q_bounds min max Hmm) as [B1 B2].
      assert (Emid : mid_q min max * 2 == min + max) by (unfold mid_q; field).
      assert (Hw' : max - min < 2 * (2 ^ (Z.of_nat fuel) * (hi - lo))).
      { rewrite Nat2Z.inj_succ in Hw. unfold Z.succ in Hw. rewrite Qpower_plus in Hw by discriminate.
        eapply Qlt_le_trans; [exact Hw|]. apply Qle_lteq. right. ring. }
      set (k := 2 ^ (Z.of_nat fuel) * (hi - lo)) in *.
      set (m := mid_q min max) in *.
      destruct (judge_q f threshold m).
      + exists m. reflexivity.
      + destruct J as [J1 J2].
        assert (Hlo : m <= lo).
        { destruct (Qlt_le_dec lo m) as [L|L]; [|exact L]. destruct (Qlt_le_dec hi m) as [L'|L'].
          - assert (F := Hm hi m ltac:(Lqa.lra) ltac:(Lqa.lra) B2).
            assert (A := Hc hi H2 (Qle_refl _)). rewrite Qabs_neg in J1 by Lqa.lra.
            apply Qabs_Qle_condition in A. Lqa.lra.
          - assert (A := Hc m (Qlt_le_weak _ _ L) L'). Lqa.lra. }
        apply (IH m max lo hi); auto; [|fold k; Lqa.lra].
        intros x y X Y Z. apply Hm; [Lqa.lra|exact Y|exact Z].
      + destruct J as [J1 J2].
        assert (Hhi : hi <= m).
        { destruct (Qlt_le_dec m hi) as [L|L]; [|exact L]. destruct (Qlt_le_dec m lo) as [L'|L'].
          - assert (F := Hm m lo B1 (Qlt_le_weak _ _ L') ltac:(Lqa.lra)).
            assert (A := Hc lo (Qle_refl _) H2). rewrite Qabs_pos in J1 by Lqa.lra.
            apply Qabs_Qle_condition in A. Lqa.lra.
          - assert (A := Hc m L' (Qlt_le_weak _ _ L)). Lqa.lra. }
        apply (IH min m lo hi); auto; [|fold k; Lqa.lra].
        intros x y X Y Z. apply Hm; [exact X|exact Y|Lqa.lra].
  Qed.
End SearchQ.

Local Opaque num_guesses.
Lemma num_guesses_val : num_guesses = 101%nat.
Proof. reflexivity. Qed.

Theorem binary_search_sound f min max threshold g : (min <= max)%Q ->
  binary_search f min max threshold = Some g ->
  (Qabs (f g) <= threshold /\ min <= g /\ g <= max)%Q.
Proof. exact (search_q_sound f threshold num_guesses min max g). Qed.

Theorem binary_search_complete f min max threshold lo hi : nondecreasing f min max ->
  (min <= lo)%Q -> (lo <= hi)%Q -> (hi <= max)%Q ->
  (forall x, (lo <= x)%Q -> (x <= hi)%Q -> (Qabs (f x) <= threshold)%Q) ->
  (max - min < 2 ^ 101 * (hi - lo))%Q ->
  exists g, binary_search f min max threshold = Some g.
Proof.
  intros H1 H2 H3 H4 H5 H6. unfold binary_search. apply (search_q_complete f threshold num_guesses min max lo hi); auto.
Qed.

Theorem binary_search_fails f min max threshold : (min <= max)%Q ->
  (forall x, (min <= x)%Q -> (x <= max)%Q -> (threshold < Qabs (f x))%Q) ->
  binary_search f min max threshold = None.
Proof.
  intros H H1. destruct (binary_search f min max threshold) as [g|] eqn:E; [|reflexivity].
  destruct (binary_search_sound f min max threshold g H E) as (A & B & C).
  specialize (H1 g B C). Lqa.lra.
Qed.

(** ** The cosmology *)

Local Open Scope R_scope.

Section SearchR.
  Variable f : R -> R.
  Variable threshold : R.

  Lemma judge_r_spec x :
    match judge_r f threshold x with
    | Close => Rabs (f x) <= threshold
    | Below => threshold < Rabs (f x) /\ f x < 0
    | Above => threshold < Rabs (f x) /\ 0 <= f x
    end.
  Proof.
    unfold judge_r. destruct (Rle_dec (Rabs (f x)) threshold) as [H|H]; [exact H|].
    destruct (Rlt_dec (f x) 0); split; Lra.lra.
  Qed.

  Lemma search_r_sound fuel : forall min max g, min <= max ->
    depth_limited_binary_search mid_r (judge_r f threshold) fuel min max = Some g ->
    Rabs (f g) <= threshold /\ min <= g /\ g <= max.
  Proof.
    induction fuel as [|fuel IH]; intros min max g H E; [discriminate E|].
    cbn [depth_limited_binary_search] in E. assert (J := judge_r_spec (mid_r min max)).
    assert (B1 : min <= mid_r min max) by (unfold mid_r; Lra.lra).
    assert (B2 : mid_r min max <= max) by (unfold mid_r; Lra.lra).
    destruct (judge_r f threshold (mid_r min max)).
    - injection E as <-. auto.
    - destruct (IH _ _ _ B2 E) as (A & B & C). split; [exact A|]. split; [Lra.lra|exact C].
    - destruct (IH _ _ _ B1 E) as (A & B & C). split; [exact A|]. split; [exact B|Lra.lra].
  Qed.

  Lemma search_r_complete fuel : forall min max lo hi,
    (forall x y, min <= x -> x <= y -> y <= max -> f x <= f y) ->
    min <= lo -> lo <= hi -> hi <= max ->
    (forall x, lo <= x -> x <= hi -> Rabs (f x) <= threshold) ->
    max - min < 2 ^ fuel * (hi - lo) ->
    exists g, depth_limited_binary_search mid_r (judge_r f threshold) fuel min max = Some g.
  Proof.
    induction fuel as [|fuel IH]; intros min max lo hi Hm H1 H2 H3 Hc Hw.
    - exfalso. cbn in Hw. Lra.lra.
    - cbn [depth_limited_binary_search]. assert (J := judge_r_spec (mid_r min max)).
      assert (B1 : min <= mid_r min max) by (unfold mid_r; Lra.lra).
      assert (B2 : mid_r min max <= max) by (unfold mid_r; Lra.lra).
      assert (Emid : mid_r min max * 2 = min + max) by (unfold mid_r; field).
      cbn [pow] in Hw.
      set (k := 2 ^ fuel * (hi - lo)) in *.
      assert (Hw' : max - min < 2 * k) by (unfold k; Lra.lra). clear Hw.
      set (m := mid_r min max) in *.
      destruct (judge_r f threshold m).
      + exists m. reflexivity.
      + destruct J as [J1 J2].
        assert (Hlo : m <= lo).
        { destruct (Rlt_le_dec lo m) as [L|L]; [|exact L]. destruct (Rlt_le_dec hi m) as [L'|L'].
          - assert (F := Hm hi m ltac:(Lra.lra) ltac:(Lra.lra) B2).
            assert (A := Hc hi H2 (Rle_refl _)). unfold Rabs in A, J1.
            destruct (Rcase_abs (f hi)); destruct (Rcase_abs (f m)); Lra.lra.
          - assert (A := Hc m (Rlt_le _ _ L) L'). Lra.lra. }
        apply (IH m max lo hi); auto; [|fold k; Lra.lra].
        intros x y X Y Z. apply Hm; Lra.lra.
      + destruct J as [J1 J2].
        assert (Hhi : hi <= m).
        { destruct (Rlt_le_dec m hi) as [L|L]; [|exact L]. destruct (Rlt_le_dec m lo) as [L'|L'].
          - assert (F := Hm m lo B1 (Rlt_le _ _ L') ltac:(Lra.lra)).
            assert (A := Hc lo (Rle_refl _) H2). unfold Rabs in A, J1.
            destruct (Rcase_abs (f lo)); destruct (Rcase_abs (f m)); Lra.lra.
          - assert (A := Hc m L' (Rlt_le _ _ L)). Lra.lra. }
        apply (IH min m lo hi); auto; [|fold k; Lra.lra].
        intros x y X Y Z. apply Hm; Lra.lra.
  Qed.
End SearchR.

Section Cosmology.
  Variable c : cosmology_params.
  Hypothesis Hm : 0 < omega_0 c.
  Hypothesis Hl : 0 < omega_lambda c.
  Notation k := (sqrt (omega_lambda c / omega_0 c)).

  Lemma ratio_pos : 0 < omega_lambda c / omega_0 c.
  Proof. apply Rdiv_lt_0_compat; assumption. Qed.

  Lemma k_pos : 0 < k.
  Proof. apply sqrt_lt_R0. exact ratio_pos. Qed.

  Lemma time_arcsinh a : 0 <= a ->
    time c a = 2 / (3 * sqrt (omega_lambda c)) * arcsinh (k * (a * sqrt a)).
  Proof.
    intro Ha. unfold time, arcsinh. do 2 f_equal. f_equal. f_equal.
    assert (E1 : k * k = omega_lambda c / omega_0 c) by (apply sqrt_sqrt; apply Rlt_le; exact ratio_pos).
    assert (E2 : sqrt a * sqrt a = a) by (apply sqrt_sqrt; exact Ha).
    replace ((k * (a * sqrt a)) ^ 2) with ((k * k) * (a * a * (sqrt a * sqrt a))) by ring.
    rewrite E1, E2. ring.
  Qed.

  Lemma factor_pos : 0 < 2 / (3 * sqrt (omega_lambda c)).
  Proof. assert (H := sqrt_lt_R0 _ Hl). apply Rdiv_lt_0_compat; Lra.lra. Qed.

  Lemma root_cubed_lt a b : 0 <= a -> a < b -> a * sqrt a < b * sqrt b.
  Proof.
    intros Ha Hab. assert (S := sqrt_lt_1_alt a b (conj Ha Hab)). assert (P := sqrt_pos a). nra.
  Qed.

  Lemma time_lt a b : 0 <= a -> a < b -> time c a < time c b.
  Proof.
    intros Ha Hab. rewrite !time_arcsinh by Lra.lra.
    apply Rmult_lt_compat_l; [exact factor_pos|]. apply arcsinh_lt.
    apply Rmult_lt_compat_l; [exact k_pos|]. apply root_cubed_lt; assumption.
  Qed.

  Lemma time_le a b : 0 <= a -> a <= b -> time c a <= time c b.
  Proof.
    intros Ha [Hab|Hab]; [|rewrite Hab; Lra.lra]. apply Rlt_le. apply time_lt; assumption.
  Qed.

  Lemma arcsinh_lipschitz u v : u <= v -> arcsinh v - arcsinh u <= v - u.
  Proof.
    intros [H|H]; [|subst; Lra.lra].
    destruct (MVT_cor2 arcsinh (fun x => / sqrt (x ^ 2 + 1)) u v H) as (x & E & _).
    - intros x _. apply derivable_pt_lim_arcsinh.
    - rewrite E. assert (S : 1 <= sqrt (x ^ 2 + 1)).
      { rewrite <- sqrt_1 at 1. apply sqrt_le_1_alt. assert (0 <= x ^ 2) by apply pow2_ge_0. Lra.lra. }
      assert (I : / sqrt (x ^ 2 + 1) <= 1).
      { rewrite <- Rinv_1 at 2. apply Rinv_le_contravar; Lra.lra. }
      nra.
  Qed.

  (** The time does not change much with the scale factor. *)
  Lemma time_lipschitz a b : 0 <= a -> a <= b -> b <= 1 ->
    time c b - time c a <= 4 / (3 * sqrt (omega_0 c)) * (b - a).
  Proof.
    intros Ha Hab Hb. rewrite !time_arcsinh by Lra.lra.
    assert (K := k_pos). assert (S0 := sqrt_lt_R0 _ Hm). assert (S1 := sqrt_lt_R0 _ Hl).
    assert (P : b * sqrt b - a * sqrt a <= 2 * (b - a)).
    { assert (Sa := sqrt_pos a). assert (Sb := sqrt_pos b).
      assert (Ea : sqrt a * sqrt a = a) by (apply sqrt_sqrt; Lra.lra).
      assert (Eb : sqrt b * sqrt b = b) by (apply sqrt_sqrt; Lra.lra).
      assert (Sab : sqrt a <= sqrt b) by (apply sqrt_le_1_alt; exact Hab).
      assert (Sb1 : sqrt b <= 1) by (rewrite <- sqrt_1; apply sqrt_le_1_alt; exact Hb).
      revert Sa Sb Sab Sb1 Ea Eb. clear.
      generalize (sqrt a) (sqrt b). intros s t H1 H2 H3 H4 <- <-.
      assert (Q : 0 <= (t - s) * ((s + t) * 2 - (s * s + s * t + t * t))).
      { apply Rmult_le_pos; [Lra.lra|]. nra. }
      Lra.lra. }
    assert (M : k * (a * sqrt a) <= k * (b * sqrt b)).
    { apply Rmult_le_compat_l; [Lra.lra|]. destruct Hab as [Hab|Hab]; [apply Rlt_le; apply root_cubed_lt; assumption|rewrite Hab; Lra.lra]. }
    assert (A := arcsinh_lipschitz _ _ M).
    assert (E : 4 / (3 * sqrt (omega_0 c)) = 2 / (3 * sqrt (omega_lambda c)) * (k * 2)).
    { rewrite sqrt_div by Lra.lra. field. Lra.lra. }
    rewrite E. rewrite <- Rmult_minus_distr_l. rewrite Rmult_assoc.
    apply Rmult_le_compat_l; [apply Rlt_le; exact factor_pos|]. nra.
  Qed.

  Theorem time_friedmann : solves_friedmann (omega_0 c) (omega_lambda c) (time c).
  Proof.
    intros a Ha.
    set (g := fun x => k * (x * sqrt x)).
    set (F := fun x => 2 / (3 * sqrt (omega_lambda c)) * arcsinh (g x)).
    assert (S0 := sqrt_lt_R0 _ Hm). assert (S1 := sqrt_lt_R0 _ Hl). assert (Sa := sqrt_lt_R0 _ Ha).
    assert (Dg : derivable_pt_lim g a (k * (1 * sqrt a + a * / (2 * sqrt a)))).
    { unfold g. apply (derivable_pt_lim_scal (fun x => x * sqrt x)).
      apply (derivable_pt_lim_mult id sqrt); [apply derivable_pt_lim_id|]. apply derivable_pt_lim_sqrt. exact Ha. }
    assert (DF : derivable_pt_lim F a (2 / (3 * sqrt (omega_lambda c)) * (/ sqrt (g a ^ 2 + 1) * (k * (1 * sqrt a + a * / (2 * sqrt a)))))).
    { unfold F. apply (derivable_pt_lim_scal (fun x => arcsinh (g x))).
      apply (derivable_pt_lim_comp g arcsinh); [exact Dg|]. apply derivable_pt_lim_arcsinh. }
    assert (E : 2 / (3 * sqrt (omega_lambda c)) * (/ sqrt (g a ^ 2 + 1) * (k * (1 * sqrt a + a * / (2 * sqrt a))))
                = 1 / (a * expansion_rate (omega_0 c) (omega_lambda c) a)).
    { assert (Ea : sqrt a * sqrt a = a) by (apply sqrt_sqrt; Lra.lra).
      assert (Haa : a * / (2 * sqrt a) = sqrt a / 2).
      { rewrite <- Ea at 1. field. Lra.lra. }
      rewrite Haa.
      assert (P3 : 0 < a * a * a) by (repeat apply Rmult_lt_0_compat; exact Ha).
      assert (Q : 0 < omega_0 c + omega_lambda c * (a * a * a)).
      { apply Rplus_lt_0_compat; [exact Hm|]. apply Rmult_lt_0_compat; assumption. }
      assert (SQ := sqrt_lt_R0 _ Q).
      assert (E1 : sqrt (g a ^ 2 + 1) = sqrt (omega_0 c + omega_lambda c * (a * a * a)) / sqrt (omega_0 c)).
      { rewrite <- sqrt_div by Lra.lra. f_equal. unfold g.
        assert (E1 : k * k = omega_lambda c / omega_0 c) by (apply sqrt_sqrt; apply Rlt_le; exact ratio_pos).
        replace ((k * (a * sqrt a)) ^ 2) with ((k * k) * (a * a * (sqrt a * sqrt a))) by ring.
        rewrite E1, Ea. field. Lra.lra. }
      assert (E2 : a * expansion_rate (omega_0 c) (omega_lambda c) a = sqrt (omega_0 c + omega_lambda c * (a * a * a)) / sqrt a).
      { unfold expansion_rate. rewrite <- (sqrt_square a) at 1 by Lra.lra.
        rewrite <- sqrt_mult_alt by nra. rewrite <- sqrt_div by Lra.lra. f_equal. field. Lra.lra. }
      rewrite E1, E2. rewrite sqrt_div by Lra.lra. field. repeat split; Lra.lra. }
    rewrite <- E. intros eps Heps. destruct (DF eps Heps) as [delta D].
    assert (Hd : 0 < Rmin delta a) by (apply Rmin_pos; [apply cond_pos|exact Ha]).
    exists (mkposreal _ Hd). intros h H0 Hh. cbn in Hh.
    assert (M1 := Rmin_l delta a). assert (M2 := Rmin_r delta a).
    specialize (D h H0 ltac:(Lra.lra)). unfold F, g in D.
    assert (Hah : 0 <= a + h) by (unfold Rabs in Hh; destruct (Rcase_abs h); Lra.lra).
    rewrite (time_arcsinh (a + h)) by exact Hah. rewrite (time_arcsinh a) by Lra.lra. exact D.
  Qed.

  Variable h : R.
  Hypothesis Hh : 0 < h.

  Lemma hubble_pos : 0 < hubble.
  Proof. unfold hubble. apply Rdiv_lt_0_compat; [Lra.lra|]. apply pow_lt. Lra.lra. Qed.

  Lemma diff_mono a x y delta : 0 <= x -> x <= y ->
    (time c x - time c a) / (hubble * h) - delta <= (time c y - time c a) / (hubble * h) - delta.
  Proof.
    intros Hx Hxy. assert (T := time_le x y Hx Hxy). assert (P := hubble_pos).
    assert (Hi : 0 < / (hubble * h)) by (apply Rinv_0_lt_compat; apply Rmult_lt_0_compat; assumption).
    unfold Rdiv. nra.
  Qed.

  Hypothesis Hflat : Rabs (omega_lambda c + omega_0 c - 1) <= 1 / 100.

  Theorem scalefactor_sound a delta g : scalefactor_after c a h delta = Some g ->
    0 <= g <= 1 /\ exists t, time_difference c a g h = Some t /\ Rabs (t - delta) <= hundred_years.
  Proof.
    unfold scalefactor_after, time_difference. destruct (Rgt_dec _ _) as [G|_]; [discriminate|].
    intro E. apply search_r_sound in E; [|Lra.lra]. destruct E as (A & B & C).
    split; [Lra.lra|]. eexists. split; [reflexivity|]. exact A.
  Qed.

  (** A scale factor that has the requested time is found. *)
  Theorem scalefactor_complete a delta a1 : 1 / 1000000 <= sqrt (omega_0 c) * h ->
    0 <= a1 <= 1 -> time_difference c a a1 h = Some delta ->
    exists g, scalefactor_after c a h delta = Some g.
  Proof.
    intros Hbig [Ha0 Ha1] Hd. unfold time_difference in Hd. unfold scalefactor_after.
    destruct (Rgt_dec _ _) as [G|_]; [discriminate Hd|]. injection Hd as <-.
    set (f := fun x => (time c x - time c a) / (hubble * h) - (time c a1 - time c a) / (hubble * h)).
    assert (P := hubble_pos). assert (S0 := sqrt_lt_R0 _ Hm).
    assert (PH : 0 < hubble * h) by (apply Rmult_lt_0_compat; assumption).
    assert (Hi : 0 < / (hubble * h)) by (apply Rinv_0_lt_compat; exact PH).
    assert (Ef : forall x, f x = (time c x - time c a1) * / (hubble * h)) by (intro x; unfold f; field; Lra.lra).
    (* a window of this width around a1 is close enough *)
    set (w := / 2 ^ 100).
    assert (Hw0 : 0 < w) by (unfold w; apply Rinv_0_lt_compat; apply pow_lt; Lra.lra).
    assert (Hw1 : w <= 1).
    { unfold w. rewrite <- Rinv_1. apply Rinv_le_contravar; [Lra.lra|]. apply pow_R1_Rle. Lra.lra. }
    assert (Hclose : forall x y, 0 <= x -> x <= y -> y <= 1 -> y - x <= w ->
              (time c y - time c x) * / (hubble * h) <= hundred_years).
    { intros x y X0 XY Y1 XW. assert (L := time_lipschitz x y X0 XY Y1).
      assert (B : 4 / (3 * sqrt (omega_0 c)) * w <= hundred_years * (hubble * h)).
      { assert (B1 : w <= / 2 ^ 60).
        { unfold w. apply Rinv_le_contravar; [apply pow_lt; Lra.lra|]. apply Rle_pow; [Lra.lra|lia]. }
        assert (B2 : / 2 ^ 60 * 4 <= 3 * hundred_years * hubble * (1 / 1000000)).
        { unfold hundred_years, hubble. Lra.lra. }
        assert (HY : 0 < hundred_years) by (unfold hundred_years; Lra.lra).
        apply (Rmult_le_reg_l (3 * sqrt (omega_0 c))); [Lra.lra|].
        replace (3 * sqrt (omega_0 c) * (4 / (3 * sqrt (omega_0 c)) * w)) with (4 * w) by (field; Lra.lra).
        replace (3 * sqrt (omega_0 c) * (hundred_years * (hubble * h))) with (3 * hundred_years * hubble * (sqrt (omega_0 c) * h)) by ring.
        apply Rle_trans with (3 * hundred_years * hubble * (1 / 1000000)); [Lra.lra|].
        apply Rmult_le_compat_l; [|exact Hbig]. assert (0 < hundred_years * hubble) by (apply Rmult_lt_0_compat; assumption). Lra.lra. }
      apply (Rmult_le_reg_r (hubble * h)); [exact PH|].
      rewrite Rmult_assoc, Rinv_l, Rmult_1_r by Lra.lra.
      apply Rle_trans with (4 / (3 * sqrt (omega_0 c)) * (y - x)); [exact L|].
      apply Rle_trans with (4 / (3 * sqrt (omega_0 c)) * w); [|exact B].
      apply Rmult_le_compat_l; [|exact XW]. apply Rlt_le. apply Rdiv_lt_0_compat; Lra.lra. }
    assert (Hmono : forall x y, 0 <= x -> x <= y -> y <= 1 -> f x <= f y).
    { intros x y X XY Y. unfold f. apply diff_mono; assumption. }
    assert (Hwin : exists lo hi, 0 <= lo /\ lo <= a1 /\ a1 <= hi /\ hi <= 1 /\ hi - lo = w).
    { destruct (Rle_lt_dec (a1 + w) 1) as [Hr|Hr].
      - exists a1, (a1 + w). repeat split; Lra.lra.
      - exists (1 - w), 1. repeat split; Lra.lra. }
    destruct Hwin as (lo & hi & W1 & W2 & W3 & W4 & W5).
    apply (search_r_complete f hundred_years num_guesses 0 1 lo hi); auto; [Lra.lra| |].
    - intros x X1 X2. rewrite Ef. destruct (Rle_lt_dec x a1) as [L|L].
      + assert (T := time_le x a1 ltac:(Lra.lra) L).
        rewrite Rabs_left1 by nra.
        replace (- ((time c x - time c a1) * / (hubble * h))) with ((time c a1 - time c x) * / (hubble * h)) by ring.
        apply Hclose; Lra.lra.
      + assert (T := time_le a1 x ltac:(Lra.lra) ltac:(Lra.lra)).
        rewrite Rabs_right by nra. apply Hclose; Lra.lra.
    - rewrite W5, num_guesses_val. unfold w. rewrite Rminus_0_r.
      apply (Rmult_lt_reg_r (2 ^ 100)); [apply pow_lt; Lra.lra|].
      rewrite Rmult_assoc, Rinv_l, Rmult_1_r, Rmult_1_l by (apply pow_nonzero; Lra.lra).
      apply Rlt_pow; [Lra.lra|lia].
  Qed.

  (** Times after today, or before the beginning, are refused. *)
  Theorem scalefactor_outside a delta : 
    (exists t, time_difference c a 1 h = Some t /\ t + hundred_years < delta)
    \/ (exists t, time_difference c a 0 h = Some t /\ delta < t - hundred_years) ->
    scalefactor_after c a h delta = None.
  Proof.
    intro H. destruct (scalefactor_after c a h delta) as [g|] eqn:E; [|reflexivity]. exfalso.
    destruct (scalefactor_sound a delta g E) as ([G0 G1] & t & Et & A).
    unfold time_difference in *. destruct (Rgt_dec _ _) as [G|_]; [discriminate Et|]. injection Et as <-.
    assert (M1 := diff_mono a g 1 0 G0 G1). assert (M0 := diff_mono a 0 g 0 (Rle_refl 0) G0).
    unfold Rabs in A. destruct H as [(t & Et & L)|(t & Et & L)]; injection Et as <-; destruct (Rcase_abs _); Lra.lra.
  Qed.
End Cosmology.

(** Differences add up. *)
Theorem time_difference_add c a0 a1 a2 h : Rabs (omega_lambda c + omega_0 c - 1) <= 1 / 100 ->
  exists t1 t2 t3, time_difference c a0 a1 h = Some t1 /\ time_difference c a1 a2 h = Some t2
    /\ time_difference c a0 a2 h = Some t3 /\ t1 + t2 = t3.
Proof.
  intro H. unfold time_difference. destruct (Rgt_dec _ _) as [G|_]; [Lra.lra|].
  eexists _, _, _. split; [reflexivity|]. split; [reflexivity|]. split; [reflexivity|]. unfold Rdiv. ring.
Qed.

Theorem time_difference_mono c a x y h : 0 < omega_0 c -> 0 < omega_lambda c -> 0 < h ->
  Rabs (omega_lambda c + omega_0 c - 1) <= 1 / 100 -> 0 <= x -> x < y ->
  exists t1 t2, time_difference c a x h = Some t1 /\ time_difference c a y h = Some t2 /\ t1 < t2.
Proof.
  intros Hm Hl Hh H Hx Hxy. unfold time_difference. destruct (Rgt_dec _ _) as [G|_]; [Lra.lra|].
  eexists _, _. split; [reflexivity|]. split; [reflexivity|].
  assert (T := time_lt c Hm Hl x y Hx Hxy). assert (P := hubble_pos).
  apply Rmult_lt_compat_r; [|Lra.lra]. apply Rinv_0_lt_compat. apply Rmult_lt_0_compat; assumption.
Qed.

Theorem time_age c : 0 < omega_0 c -> 0 < omega_lambda c ->
  time c 0 = 0 /\ solves_friedmann (omega_0 c) (omega_lambda c) (time c).
Proof.
  intros Hm Hl. split; [|exact (time_friedmann c Hm Hl)].
  rewrite (time_arcsinh c Hm Hl 0 (Rle_refl 0)). rewrite Rmult_0_l, Rmult_0_r, arcsinh_0. ring.
Qed.
