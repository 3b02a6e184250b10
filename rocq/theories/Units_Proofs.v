(** Proofs about the units of datasets. *)
From Coq Require Import List ZArith QArith Qfield Qpower String Bool Lia.
From Verif Require Import Units_Model Units_Spec.
Import ListNotations.
Local Open Scope Q_scope.

Lemma dim_eqb_eq : forall d e, dim_eqb d e = true <-> d = e.
Proof.
  intros [l t m te h a] [l' t' m' te' h' a']. unfold dim_eqb. cbn.
  rewrite !andb_true_iff, !Z.eqb_eq. split; [intros (((((-> & ->) & ->) & ->) & ->) & ->); reflexivity | intros H; inversion H; auto 10].
Qed.
Lemma dim_eqb_neq : forall d e, d <> e -> dim_eqb d e = false.
Proof. intros d e H. destruct (dim_eqb d e) eqn:E; [apply dim_eqb_eq in E; contradiction | reflexivity]. Qed.

Lemma base_one : forall d, base_conversion_factor d == 1.
Proof.
  intros d. unfold base_conversion_factor, length_to_si, time_to_si, mass_to_si, temperature_to_si. rewrite !Qpower_1. reflexivity.
Qed.

Lemma raw_dimension : forall d set, written_as d set ->
  read_raw_dimension set = Some (mkDim (l_scaling d + v_scaling d) (- v_scaling d) (m_scaling d) 0 (h_scaling d) (a_scaling d)) .
Proof. intros d set (H1 & H2 & H3 & H4 & H5 & H6). unfold read_raw_dimension. rewrite H1, H2, H3, H4, H5. reflexivity. Qed.

Lemma is_comoving : forall d, is_cosmological (mkDim (l_scaling d + v_scaling d) (- v_scaling d) (m_scaling d) 0 (h_scaling d) (a_scaling d)) = true <-> comoving d.
Proof.
  intros d. unfold is_cosmological, comoving. cbn. rewrite orb_true_iff, !negb_true_iff, !Z.eqb_neq. tauto.
Qed.
Lemma not_comoving : forall d, ~ comoving d -> a_scaling d = 0%Z /\ h_scaling d = 0%Z.
Proof. intros d H. unfold comoving in H. lia. Qed.

Lemma inverse_power : forall x n, ~ x == 0 -> 1 / x ^ (- n) == x ^ n.
Proof. intros x n H. rewrite Qpower_opp. field. now apply Qpower_not_0. Qed.

Section Arepo.
  Variable d : arepo_dataset.
  Variable set : attributes.
  Hypothesis W : written_as d set.

  Lemma found_dimension : forall c, (comoving d -> c <> NonCosmological) -> arepo_dimension c set = Some (physical_dimension d).
  Proof.
    intros c H. unfold arepo_dimension. rewrite (raw_dimension d set W). cbn [bind].
    destruct (is_cosmological _) eqn:E.
    - apply is_comoving in E. destruct c; [reflexivity|]. now elim (H E).
    - assert (N : ~ comoving d) by (intros X; apply is_comoving in X; congruence). apply not_comoving in N. destruct N as [-> ->]. reflexivity.
  Qed.

  Lemma scale_value : forall c a0 h0, ~ a0 == 0 -> ~ h0 == 0 -> ~ to_cgs d == 0 -> c = Cosmological a0 h0 \/ ~ comoving d ->
    exists f, arepo_scale_factor c set = Some f /\ f == physical d a0 h0 1.
  Proof.
    intros c a0 h0 Ha Hh Hc H. unfold arepo_scale_factor. rewrite (raw_dimension d set W). cbn [bind].
    destruct W as (_ & _ & _ & _ & _ & Ec). rewrite Ec.
    assert (Z : Qeq_bool (to_cgs d) 0 = false).
    { destruct (Qeq_bool (to_cgs d) 0) eqn:E; [apply Qeq_bool_eq in E; contradiction | reflexivity]. }
    cbn [Units_Model.length Units_Model.mass].
    assert (P : (1 # 100) ^ (l_scaling d + v_scaling d) * (1 # 1000) ^ m_scaling d ==
      centimetre ^ l_scaling d * gram ^ m_scaling d * (centimetre / second) ^ v_scaling d).
    { rewrite Qpower_plus by discriminate. unfold centimetre, gram, second. setoid_replace ((1 # 100) / 1) with (1 # 100) by reflexivity. ring. }
    destruct (is_cosmological _) eqn:E.
    - apply is_comoving in E. destruct H as [-> | H]; [|contradiction]. cbn [bind get_cosmological_factor get_factor Units_Model.a Units_Model.h].
      rewrite Z. cbn [bind]. eexists. split; [reflexivity|]. unfold physical. rewrite P.
      setoid_replace (1 / (a0 ^ (- a_scaling d) * h0 ^ (- h_scaling d))) with ((1 / a0 ^ (- a_scaling d)) * (1 / h0 ^ (- h_scaling d))).
      + rewrite !inverse_power by assumption. ring.
      + field. split; apply Qpower_not_0; assumption.
    - assert (N : ~ comoving d) by (intros X; apply is_comoving in X; congruence). apply not_comoving in N. destruct N as [N1 N2].
      cbn [bind]. rewrite Z. cbn [bind]. eexists. split; [reflexivity|]. unfold physical. rewrite P, N1, N2. cbn [Qpower]. ring.
  Qed.

  Theorem arepo_value : forall c a0 h0 x, ~ a0 == 0 -> ~ h0 == 0 -> ~ to_cgs d == 0 -> c = Cosmological a0 h0 \/ ~ comoving d ->
    exists v, read_value (Arepo c) set (physical_dimension d) x = Some v /\ v == physical d a0 h0 x.
  Proof.
    intros c a0 h0 x Ha Hh Hc H. destruct (scale_value c a0 h0 Ha Hh Hc H) as (f & Ef & Vf).
    unfold read_value. cbn [read_scale_factor read_dimension]. rewrite Ef. cbn [bind].
    rewrite found_dimension; [|destruct H as [-> | H]; [discriminate | tauto]]. cbn [bind].
    rewrite (proj2 (dim_eqb_eq _ _) eq_refl). eexists. split; [reflexivity|].
    rewrite base_one, Vf. unfold physical. field.
  Qed.

  Theorem arepo_wrong_dimension : forall c e x, e <> physical_dimension d -> read_value (Arepo c) set e x = None.
  Proof.
    intros c e x H. unfold read_value. cbn [read_scale_factor read_dimension].
    destruct (arepo_scale_factor c set) as [f|]; [|reflexivity]. cbn [bind].
    destruct (arepo_dimension c set) as [g|] eqn:E; [|reflexivity]. cbn [bind].
    assert (g = physical_dimension d).
    { assert (Hc : comoving d -> c <> NonCosmological).
      { intros X ->. unfold arepo_dimension in E. rewrite (raw_dimension d set W) in E. cbn [bind] in E. apply is_comoving in X. rewrite X in E. discriminate. }
      rewrite (found_dimension c Hc) in E. congruence. }
    subst g. now rewrite dim_eqb_neq by congruence.
  Qed.

  Theorem arepo_no_cosmology : forall e x, comoving d -> read_value (Arepo NonCosmological) set e x = None.
  Proof.
    intros e x H. unfold read_value. cbn [read_scale_factor]. unfold arepo_scale_factor. rewrite (raw_dimension d set W). cbn [bind].
    apply is_comoving in H. rewrite H. reflexivity.
  Qed.

  Theorem arepo_zero : forall c x, to_cgs d == 0 ->
    (physical_dimension d = none /\ ~ comoving d -> exists v, read_value (Arepo c) set none x = Some v /\ v == x) /\
    (physical_dimension d <> none \/ comoving d -> forall e, read_value (Arepo c) set e x = None).
  Proof.
    intros c x Z. apply Qeq_bool_iff in Z.
    assert (S : arepo_scale_factor c set =
      bind (if is_cosmological (mkDim (l_scaling d + v_scaling d) (- v_scaling d) (m_scaling d) 0 (h_scaling d) (a_scaling d))
            then bind (get_cosmological_factor c (mkDim (l_scaling d + v_scaling d) (- v_scaling d) (m_scaling d) 0 (h_scaling d) (a_scaling d))) (fun f => Some (1 / f)) else Some 1)
        (fun k => bind (if dim_eqb (mkDim (l_scaling d + v_scaling d) (- v_scaling d) (m_scaling d) 0 (h_scaling d) (a_scaling d)) none then Some 1 else None)
          (fun cgs => Some (k * ((1 # 100) ^ (l_scaling d + v_scaling d) * (1 # 1000) ^ m_scaling d) * cgs)))).
    { unfold arepo_scale_factor. rewrite (raw_dimension d set W). destruct W as (_ & _ & _ & _ & _ & Ec). cbn [bind Units_Model.length Units_Model.mass]. rewrite Ec. cbn [bind]. rewrite Z. reflexivity. }
    split.
    - intros (P & N). pose proof (not_comoving d N) as [N1 N2]. pose proof P as P'. injection P' as L T M.
      assert (D : mkDim (l_scaling d + v_scaling d) (- v_scaling d) (m_scaling d) 0 (h_scaling d) (a_scaling d) = none) by (unfold none; f_equal; assumption).
      rewrite D in S. cbn [is_cosmological Units_Model.a Units_Model.h none negb orb Z.eqb] in S. cbn in S.
      unfold read_value. cbn [read_scale_factor read_dimension]. rewrite S, L, M. cbn [bind].
      rewrite found_dimension by tauto. cbn [bind]. rewrite P. cbn [dim_eqb none]. eexists. split; [reflexivity|].
      rewrite base_one. cbn [Qpower]. field. 
    - intros H e. unfold read_value. cbn [read_scale_factor].
      assert (D : dim_eqb (mkDim (l_scaling d + v_scaling d) (- v_scaling d) (m_scaling d) 0 (h_scaling d) (a_scaling d)) none = false).
      { apply dim_eqb_neq. intros E. injection E as L T M Hh Ha. destruct H as [H | [H | H]]; [|congruence|congruence].
        apply H. unfold physical_dimension, none. f_equal; assumption. }
      rewrite D in S. cbn [bind] in S.
      assert (X : arepo_scale_factor c set = None).
      { rewrite S. match goal with |- bind ?y _ = None => destruct y; reflexivity end. }
      rewrite X. reflexivity.
  Qed.
End Arepo.

(** ** Own snapshots. *)
Lemma written : forall d, exists set, add_dimension_attrs d = Some set /\ default_scale_factor set = Some (base_conversion_factor d) /\
  default_dimension set = Some (non_cosmological d).
Proof. intros d. eexists. split; [reflexivity|]. split; reflexivity. Qed.

Theorem round_trip : forall d, exists set, add_dimension_attrs d = Some set /\
  (forall x, exists v, read_value Default set (non_cosmological d) x = Some v /\ v == x) /\
  (forall e x, e <> non_cosmological d -> read_value Default set e x = None).
Proof.
  intros d. destruct (written d) as (set & E & S & D). exists set. split; [exact E|]. split.
  - intros x. unfold read_value. cbn [read_scale_factor read_dimension]. rewrite S, D. cbn [bind].
    rewrite (proj2 (dim_eqb_eq _ _) eq_refl). eexists. split; [reflexivity|].
    rewrite !base_one. field.
  - intros e x H. unfold read_value. cbn [read_scale_factor read_dimension]. rewrite S, D. cbn [bind].
    now rewrite dim_eqb_neq by congruence.
Qed.

Theorem remap_comoving : forall a1 h1 a0 h0 x, ~ a0 == 0 -> ~ a1 == 0 ->
  exists y, remap_coordinate (Cosmological a1 h1) a0 h0 x = Some y /\ y / a1 == x / a0.
Proof.
  intros. eexists. split; [reflexivity|]. cbn [Units_Model.length scale_factor]. change ((a1 / a0) ^ 1) with (a1 / a0). field. auto.
Qed.
