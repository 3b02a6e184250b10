(** Proofs about the start-up. *)
From Coq Require Import QArith Lqa List Sorting.Permutation Lia.
From Verif Require Import StartUp_Model StartUp_Spec.
Import ListNotations.
Open Scope Q_scope.

Lemma clamp_spec lo hi y : lo <= hi -> nearest_within lo hi y (clamp lo hi y).
Proof.
  intros H. unfold clamp, nearest_within.
  destruct (Qle_bool lo y) eqn:E1; simpl.
  - apply Qle_bool_iff in E1. destruct (Qle_bool y hi) eqn:E2; simpl.
    + apply Qle_bool_iff in E2. repeat split; intros; lra.
    + assert (hi < y).
      { apply Qnot_le_lt. intros C. apply Qle_bool_iff in C. congruence. }
      repeat split; intros; lra.
  - assert (y < lo).
    { apply Qnot_le_lt. intros C. apply Qle_bool_iff in C. congruence. }
    repeat split; intros; lra.
Qed.

Lemma bounds_ordered : lowest <= highest.
Proof. unfold highest, lowest. lra. Qed.

Section Gas.
  Variables kb mp gamma : Q.
  Hypothesis Hkb : 0 < kb.
  Hypothesis Hmp : 0 < mp.
  Hypothesis Hgamma : 1 < gamma.

  Lemma temperature_ideal e x rho : 0 < rho -> 0 <= x ->
    ideal_gas kb gamma ((1 + x) * (rho / mp))
      (temperature_of_density kb mp gamma e x rho) e.
  Proof.
    intros Hr Hx. unfold ideal_gas, temperature_of_density, to_temperature.
    field. repeat split; intros C; lra.
  Qed.

  Lemma temperature_round_trip e x rho : 0 < rho -> 0 <= x ->
    density_of_temperature kb mp gamma
      (temperature_of_density kb mp gamma e x rho) x rho == e.
  Proof.
    intros Hr Hx. unfold density_of_temperature, to_internal_energy,
      temperature_of_density, to_temperature.
    field. repeat split; intros C; lra.
  Qed.

  Lemma energy_round_trip t x rho : 0 < rho -> 0 <= x ->
    temperature_of_density kb mp gamma
      (density_of_temperature kb mp gamma t x rho) x rho == t.
  Proof.
    intros Hr Hx. unfold density_of_temperature, to_internal_energy,
      temperature_of_density, to_temperature.
    field. repeat split; intros C; lra.
  Qed.
End Gas.

Lemma perm_one {A} (o : list A) a : Permutation o [a] -> o = [a].
Proof.
  intros H. apply Permutation_sym in H. apply Permutation_length_1_inv in H.
  exact H.
Qed.

Lemma order_read o : allowed ReadInput o -> o = [InsertFraction].
Proof. intros [H _]. apply perm_one. exact H. Qed.

Lemma order_after o : allowed AfterGrid o -> o = [ComputeMass].
Proof. intros [H _]. apply perm_one. exact H. Qed.

Lemma order_derived o : allowed InsertDerived o ->
  o = [SetFraction; InsertMissing].
Proof.
  intros [H C]. apply Permutation_sym in H. simpl in H.
  apply Permutation_length_2_inv in H. destruct H as [->| ->]; [easy|].
  exfalso. apply (C SetFraction InsertMissing [] [SetFraction]); simpl; auto.
Qed.

Lemma perm_three {A} (o : list A) a b c : Permutation o [a; b; c] ->
  o = [a; b; c] \/ o = [a; c; b] \/ o = [b; a; c] \/ o = [b; c; a]
  \/ o = [c; a; b] \/ o = [c; b; a].
Proof.
  intros H.
  pose proof (Permutation_length H) as L. destruct o as [|x [|y [|z [|? ?]]]]; try easy.
  assert (I : In x [a; b; c]) by (apply (Permutation_in _ H); simpl; auto).
  simpl in I. destruct I as [<-|[<-|[<-|[]]]].
  - apply Permutation_cons_inv in H. apply Permutation_sym in H.
    apply Permutation_length_2_inv in H. destruct H as [E|E]; injection E as -> ->; tauto.
  - assert (H' : Permutation [b; y; z] [b; a; c]).
    { eapply Permutation_trans; [exact H|apply perm_swap]. }
    apply Permutation_cons_inv in H'. apply Permutation_sym in H'.
    apply Permutation_length_2_inv in H'. destruct H' as [E|E]; injection E as -> ->; tauto.
  - assert (H' : Permutation [c; y; z] [c; a; b]).
    { eapply Permutation_trans; [exact H|].
      apply Permutation_sym. apply (Permutation_cons_append [a; b] c). }
    apply Permutation_cons_inv in H'. apply Permutation_sym in H'.
    apply Permutation_length_2_inv in H'. destruct H' as [E|E]; injection E as -> ->; tauto.
Qed.

Lemma start_up_spec kb mp gamma initial cell rho u xe orders :
  0 < kb -> 0 < mp -> 1 < gamma -> 0 < rho ->
  (forall x, initial = Some x -> 0 <= x) ->
  Forall2 allowed stages orders ->
  let p := start_up kb mp gamma initial cell orders
             (read_particle initial rho u xe) in
  exists x t,
    fraction p = Some x
    /\ (forall y, initial = Some y -> x == y)
    /\ (initial = None ->
        nearest_within (1 # 10000000000) (9999999999 # 10000000000)
          ((19 # 25) * xe) x)
    /\ temperature p = Some t
    /\ ideal_gas kb gamma ((1 + x) * (rho / mp)) t (rho * u)
    /\ density p = Some rho /\ mass p = Some (rho * cell)
    /\ volume p = Some cell
    /\ photon_rate p = Some 0 /\ source p = Some 0
    /\ energy p = None /\ abundance p = None.
Proof.
  intros Hkb Hmp Hg Hr Hi HF.
  inversion HF as [|? o1 ? r1 A1 HF1 E1 E2]; subst.
  inversion HF1 as [|? o2 ? r2 A2 HF2 E1 E2]; subst.
  inversion HF2 as [|? o3 ? r3 A3 HF3 E1 E2]; subst.
  inversion HF3 as [|? o4 ? r4 A4 HF4 E1 E2]; subst.
  inversion HF4; subst.
  apply order_read in A1. apply order_derived in A2. apply order_after in A4.
  destruct A3 as [A3 _]. apply perm_three in A3. subst o1 o2 o4.
  set (x := match initial with
            | Some y => y | None => clamp lowest highest (xh * xe) end).
  assert (Hx : 0 <= x).
  { subst x. destruct initial as [y|]; [apply Hi; reflexivity|].
    pose proof (clamp_spec lowest highest (xh * xe) bounds_ordered) as [[L _] _].
    unfold lowest at 1 in L. lra. }
  exists x, (temperature_of_density kb mp gamma (u * rho) x rho).
  assert (G : (1 + x) * (rho / mp) * kb
              * temperature_of_density kb mp gamma (u * rho) x rho
              == (gamma - 1) * (rho * u)).
  { pose proof (temperature_ideal kb mp gamma Hkb Hmp (u * rho) x rho Hr Hx) as T.
    unfold ideal_gas in T. rewrite <- T. ring. }
  assert (N : initial = None ->
        nearest_within (1 # 10000000000) (9999999999 # 10000000000)
          ((19 # 25) * xe) x).
  { intros E. subst x. rewrite E.
    pose proof (clamp_spec lowest highest (xh * xe) bounds_ordered) as (A & B & C & D).
    assert (Eh : highest == 9999999999 # 10000000000) by reflexivity.
    assert (Ex : xh * xe == (19 # 25) * xe) by (unfold xh; lra).
    unfold nearest_within. change (1 # 10000000000) with lowest.
    repeat split; intros; lra. }
  assert (Y : forall y, initial = Some y -> x == y).
  { intros y E. subst x. rewrite E. reflexivity. }
  unfold ideal_gas.
  destruct A3 as [->|[->|[->|[->|[->| ->]]]]];
    (destruct initial as [y|]; subst x; simpl;
     (split; [reflexivity|]; split; [exact Y|]; split; [exact N|];
      split; [reflexivity|]; split; [symmetry; exact G|]; repeat split; reflexivity)).
Qed.

(** The order in which main.rs adds the systems is allowed. *)
Lemma own_orders_allowed : Forall2 allowed stages (map systems_of stages).
Proof.
  assert (A : forall st, allowed st (systems_of st)).
  { intros st. split; [apply Permutation_refl|].
    intros a b l1 l2 [E|[]] H I. injection E as <- <-.
    destruct st; simpl in H; destruct l1 as [|x1 [|x2 [|x3 [|x4 l1]]]];
      simpl in H; inversion H; subst; simpl in I; tauto. }
  repeat constructor; apply A.
Qed.
