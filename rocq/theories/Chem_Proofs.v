(** Proofs about the chemistry step. *)
From Coq Require Import List Arith ZArith QArith Qabs Lia Lqa Field.
From Verif Require Import Chem_Model Chem_Spec.
Import ListNotations.
Local Open Scope Q_scope.

Lemma Qlt_bool_true : forall a b, Qlt_bool a b = true <-> a < b.
Proof.
  intros a b. unfold Qlt_bool. rewrite negb_true_iff. split; intro H.
  - apply Qnot_le_lt. intro C. apply Qle_bool_iff in C. congruence.
  - destruct (Qle_bool b a) eqn:E; [|reflexivity]. apply Qle_bool_iff in E. lra.
Qed.
Lemma Qlt_bool_false : forall a b, Qlt_bool a b = false <-> b <= a.
Proof.
  intros a b. unfold Qlt_bool. rewrite negb_false_iff. apply Qle_bool_iff.
Qed.
Ltac qcase := match goal with
  | |- context [Qlt_bool ?a ?b] => let H := fresh in destruct (Qlt_bool a b) eqn:H; [apply Qlt_bool_true in H|apply Qlt_bool_false in H]
  end.

Definition big : Q := 4503599627370496 # 1.

Lemma nmin_nan : forall b, nmin NaN (Fin b) = Fin b. Proof. reflexivity. Qed.
Lemma update_some : forall v c f h w r, f < big -> update (Fin v) c f h = Some (w, r) ->
  exists dc, c = Fin dc /\ Qabs dc <= f * Qabs v /\ w = Fin (v + dc) /\ ~ v == 0.
Proof.
  intros v c f h w r Hf. unfold update. change inv_epsilon with (Fin big).
  assert (X : Qlt_bool f big = true) by (apply Qlt_bool_true; auto).
  destruct c as [dc|neg|]; cbn [ndiv].
  - destruct (Qeq_bool v 0) eqn:E.
    + destruct (Qeq_bool dc 0); cbn [nabs nmin nlt negb]; [rewrite X; discriminate|].
      cbn [nlt]. rewrite X. discriminate.
    + apply Qeq_bool_neq in E. cbn [nabs nmin nlt].
      destruct (Qlt_bool big (Qabs (dc / v))) eqn:B.
      * cbn [nlt]. rewrite X. discriminate.
      * cbn [nlt]. destruct (Qlt_bool f (Qabs (dc / v))) eqn:C; [discriminate|]. apply Qlt_bool_false in C.
        intro H. injection H as <- _. exists dc. split; [reflexivity|]. split; [|split; [reflexivity|exact E]].
        assert (Y : Qabs dc == Qabs (dc / v) * Qabs v).
        { rewrite <- Qabs_Qmult. apply Qabs_wd. field. exact E. }
        rewrite Y. apply Qmult_le_compat_r; [exact C|apply Qabs_nonneg].
  - cbn [nabs nmin nlt negb]. rewrite X. discriminate.
  - cbn [nabs nmin nlt]. rewrite X. discriminate.
Qed.

Section S.
  Variable phys : physics.
  Variable floor : option (num * num).
  Variable safety : Q.
  Variable lo : Q.
  Hypothesis Hlo : lo <= 1 - eps.
  Hypothesis Hfloor : (floor = None /\ lo = eps) \/ exists tl, floor = Some (Fin tl, Fin lo).
  Hypothesis Hsafety : safety < big.

  Definition inb (s : chem) : Prop := exists t x, s = Chem (Fin t) (Fin x) /\ lo <= x <= 1 - eps
    /\ match floor with Some (Fin tl, _) => tl <= t | _ => True end.

  Lemma nle_lo : nle (Fin lo) (Fin (1 - eps)) = true.
  Proof. cbn [nle nlt]. apply negb_true_iff. apply Qlt_bool_false. exact Hlo. Qed.

  Lemma floor_x : match floor with Some (_, x) => x | None => Fin eps end = Fin lo.
  Proof. destruct Hfloor as [[-> ->]|(tl & ->)]; reflexivity. Qed.

  Lemma clamp_ok : forall t x, exists t' x', clamp floor (Chem (Fin t) (Fin x)) = Some (Chem (Fin t') (Fin x'))
    /\ floored floor t t' /\ limited floor x x' /\ inb (Chem (Fin t') (Fin x')).
  Proof.
    intros t x. unfold clamp. rewrite floor_x. unfold nclamp. rewrite nle_lo. cbn [frac temp].
    assert (T : exists t', match floor with Some (tl, _) => if nlt (Fin t) tl then tl else Fin t | None => Fin t end = Fin t'
                /\ floored floor t t' /\ match floor with Some (Fin tl, _) => tl <= t' | _ => True end).
    { destruct Hfloor as [[-> _]|(tl & ->)].
      - exists t. repeat split.
      - cbn [nlt floored]. qcase.
        + exists tl. split; [reflexivity|]. split; [exists tl; auto|lra].
        + exists t. split; [reflexivity|]. split; [exists tl; auto|exact H]. }
    destruct T as (t' & T1 & T2 & T3).
    assert (L : forall y, (x < lo /\ y = lo \/ 1 - eps < x /\ y = 1 - eps \/ lo <= x <= 1 - eps /\ y = x) -> limited floor x y).
    { intros y H. exists lo. split; [destruct Hfloor as [[-> ->]|(tl & ->)]; reflexivity|exact H]. }
    assert (X : exists x', (if Qlt_bool x lo then Fin lo else if Qlt_bool (1 - eps) x then Fin (1 - eps) else Fin x) = Fin x'
                /\ limited floor x x' /\ lo <= x' <= 1 - eps).
    { qcase; [|qcase].
      - exists lo. split; [reflexivity|]. split; [apply L; auto|lra].
      - exists (1 - eps). split; [reflexivity|]. split; [apply L; auto|lra].
      - exists x. split; [reflexivity|]. split; [apply L; auto|lra]. }
    destruct X as (x' & X1 & X2 & X3). rewrite T1. cbn [nlt]. rewrite X1. exists t', x'.
    split; [reflexivity|]. split; [exact T2|]. split; [exact X2|]. exists t', x'. auto.
  Qed.

  Lemma clamp_id : forall s, inb s -> clamp floor s = Some s.
  Proof.
    intros s (t & x & -> & Hx & Ht). unfold clamp. rewrite floor_x. unfold nclamp. rewrite nle_lo. cbn [frac temp nlt].
    assert (A : Qlt_bool x lo = false) by (apply Qlt_bool_false; lra).
    assert (B : Qlt_bool (1 - eps) x = false) by (apply Qlt_bool_false; lra).
    rewrite A, B. destruct Hfloor as [[-> _]|(tl & ->)]; [reflexivity|].
    cbn [nlt]. assert (C : Qlt_bool t tl = false) by (apply Qlt_bool_false; exact Ht). rewrite C. reflexivity.
  Qed.

  Lemma try_ok : forall s h, inb s ->
    (exists s' r, try_update phys floor safety s h = Some (s', Some r) /\ inb s' /\ accepted phys floor safety s h s')
    \/ (exists s', try_update phys floor safety s h = Some (s', None)).
  Proof.
    intros s h (t & x & -> & Hx & Ht). unfold try_update. cbn [temp frac].
    destruct (update (Fin t) _ safety h) as [[t1 r1]|] eqn:E1; [|right; eauto].
    apply update_some in E1; auto. destruct E1 as (dt & D1 & D2 & -> & _).
    destruct (update (Fin x) _ safety h) as [[x1 r2]|] eqn:E2; [|right; eauto].
    apply update_some in E2; auto. destruct E2 as (dx & F1 & F2 & -> & _).
    destruct (clamp_ok (t + dt) (x + dx)) as (t' & x' & C1 & C2 & C3 & C4). rewrite C1. left.
    eexists. eexists. split; [reflexivity|]. split; [exact C4|].
    exists t, x, dt, dx, t', x'. repeat (split; [assumption || reflexivity|]). reflexivity.
  Qed.

  Lemma substeps_app : forall s hs s1 hs' s2, substeps phys floor safety s hs s1 -> substeps phys floor safety s1 hs' s2 ->
    substeps phys floor safety s (hs ++ hs') s2.
  Proof. intros s hs s1 hs' s2 H. revert hs' s2. induction H; intros hs' s' H'; [exact H'|]. cbn. econstructor; eauto. Qed.
  Lemma total_app : forall l m, total (l ++ m) == total l + total m.
  Proof. unfold total. induction l as [|a l IH]; intro m; cbn [app fold_right]; [ring|]. rewrite IH. ring. Qed.

  Lemma halved_weaken : forall n h a, halved n (h / 2) a -> halved (S n) h a.
  Proof.
    intros n h a (k & Hk & E). exists (S k). split; [lia|]. rewrite E.
    rewrite Nat2Z.inj_succ, Z.pow_succ_r by lia. rewrite inject_Z_mult. change (inject_Z 2) with 2.
    assert (P : (0 < 2 ^ Z.of_nat k)%Z) by (apply Z.pow_pos_nonneg; lia).
    assert (0 < inject_Z (2 ^ Z.of_nat k)) by (change 0 with (inject_Z 0); rewrite <- Zlt_Qlt; exact P).
    field. lra.
  Qed.

  Lemma half : forall h, h / 2 == (1 # 2) * h. Proof. intro h. field. Qed.
  Lemma internal_ok : forall n h s, inb s ->
    exists s' r hs, internal phys floor safety n h s = Some (s', r) /\ inb s'
      /\ substeps phys floor safety s hs s' /\ Forall (halved n h) hs
      /\ match r with Some _ => total hs == h | None => 0 < h -> total hs < h end.
  Proof.
    induction n as [|n IH]; intros h s Hs; cbn [internal]; rewrite (clamp_id s Hs).
    - exists s, None, []. repeat split; auto; try constructor.
    - destruct (try_ok s h Hs) as [(s' & r & E & I & A)|(s' & E)]; rewrite E.
      + exists s', (Some r), [h]. split; [reflexivity|]. split; [exact I|].
        split; [econstructor; [exact A|constructor]|]. split.
        * constructor; [|constructor]. exists 0%nat. split; [lia|]. cbn. field.
        * cbn. lra.
      + assert (Er : Chem (temp s) (frac s) = s) by (destruct s; reflexivity). rewrite Er.
        destruct (IH (h / 2) s Hs) as (s1 & r1 & hs1 & E1 & I1 & S1 & F1 & T1). rewrite E1.
        destruct r1 as [r1|].
        * destruct (IH (h / 2) s1 I1) as (s2 & r2 & hs2 & E2 & I2 & S2 & F2 & T2). rewrite E2.
          exists s2, r2, (hs1 ++ hs2). split; [reflexivity|]. split; [exact I2|].
          split; [eapply substeps_app; eauto|]. split.
          { apply Forall_app. split; (eapply Forall_impl; [|eassumption]); intros a Ha; apply halved_weaken; auto. }
          destruct r2 as [r2|]; [rewrite total_app, T1, T2; field|].
          intro Hh. rewrite total_app, T1. pose proof (half h) as Hf. specialize (T2 ltac:(lra)). lra.
        * exists s1, None, hs1. split; [reflexivity|]. split; [exact I1|]. split; [exact S1|]. split.
          { eapply Forall_impl; [|exact F1]. intros a Ha. apply halved_weaken; auto. }
          intro Hh. pose proof (half h) as Hf. specialize (T1 ltac:(lra)). lra.
  Qed.

  Lemma internal_clamped : forall n h s s0, clamp floor s = Some s0 -> clamp floor s0 = Some s0 ->
    internal phys floor safety n h s = internal phys floor safety n h s0.
  Proof. intros n h s s0 A B. destruct n; cbn [internal]; rewrite A, B; reflexivity. Qed.

  Lemma perform_ok : forall h t x,
    exists s0 s' r hs, clamp floor (Chem (Fin t) (Fin x)) = Some s0 /\ inb s0
      /\ perform_timestep phys floor safety (Chem (Fin t) (Fin x)) h = Some (s', r) /\ inb s'
      /\ substeps phys floor safety s0 hs s' /\ Forall (halved 101 h) hs
      /\ (total hs == h \/ (r = Fin (h / 10) /\ (0 < h -> total hs < h))).
  Proof.
    intros h t x. destruct (clamp_ok t x) as (t' & x' & C1 & C2 & C3 & C4).
    destruct (internal_ok 101 h _ C4) as (s' & r & hs & E & I & Hsub & F & T).
    exists (Chem (Fin t') (Fin x')). unfold perform_timestep.
    assert (Ei : internal phys floor safety 101 h (Chem (Fin t) (Fin x)) = internal phys floor safety 101 h (Chem (Fin t') (Fin x'))).
    { apply internal_clamped; [exact C1|exact (clamp_id _ C4)]. }
    rewrite Ei, E. destruct r as [r|].
    - exists s', r, hs. repeat (split; [assumption || reflexivity|]). auto.
    - exists s', (Fin (h / 10)), hs. repeat (split; [assumption || reflexivity|]). auto.
  Qed.
End S.

Lemma eps_pos : 0 < eps /\ eps < 1 - eps. Proof. split; reflexivity. Qed.

(** * Sequences of updates *)
Lemma one_update : forall (pc : bool) safety phys h t x, safety < big -> (pc = true -> x <= 1 - eps) ->
  exists s' r, update_abundances pc safety phys h (Chem (Fin t) (Fin x)) = Some (s', r)
  /\ exists t' x', s' = Chem (Fin t') (Fin x') /\ (if pc then x else eps) <= x' <= 1 - eps /\ (pc = true -> t <= t').
Proof.
  intros pc safety phys h t x Hs Hx. unfold update_abundances. destruct pc.
  - assert (Hf : (Some (Fin t, Fin x) = None /\ x = eps) \/ exists tl, Some (Fin t, Fin x) = Some (Fin tl, Fin x)) by (right; eauto).
    destruct (perform_ok phys (Some (Fin t, Fin x)) safety x (Hx eq_refl) Hf Hs h t x) as (s0 & s' & r & hs & _ & _ & E & (t' & x' & Es & I1 & I2) & _).
    cbn [temp frac]. exists s', r. split; [exact E|]. exists t', x'. auto.
  - assert (Hf : (@None (num * num) = None /\ eps = eps) \/ exists tl, @None (num * num) = Some (Fin tl, Fin eps)) by (left; auto).
    assert (He : eps <= 1 - eps) by (pose proof eps_pos; lra).
    destruct (perform_ok phys None safety eps He Hf Hs h t x) as (s0 & s' & r & hs & _ & _ & E & (t' & x' & Es & I1 & I2) & _).
    exists s', r. split; [exact E|]. exists t', x'. split; [exact Es|]. split; [exact I1|discriminate].
Qed.

Lemma updates_ok : forall pc safety l t x, safety < big -> (pc = true -> 0 < x <= 1 - eps) ->
  exists r, updates pc safety l (Chem (Fin t) (Fin x)) = Some r /\ length r = length l /\ healthy pc t x r.
Proof.
  intros pc safety l. induction l as [|[phys h] l IH]; intros t x Hs Hx; cbn [updates].
  - exists []. repeat split.
  - destruct (one_update pc safety phys h t x Hs) as (s' & r & E & t' & x' & -> & Hb & Ht).
    { intro. apply Hx; auto. }
    rewrite E. pose proof eps_pos as [P1 P2].
    assert (X0 : 0 < x').
    { destruct pc; [specialize (Hx eq_refl); lra|lra]. }
    destruct (IH t' x' Hs) as (r' & E' & L' & H').
    { intro Hp. split; [exact X0|]. lra. }
    rewrite E'. exists (Chem (Fin t') (Fin x') :: r'). split; [reflexivity|]. split; [cbn; auto|].
    cbn [healthy]. exists t', x'. split; [reflexivity|]. split; [lra|]. split; [lra|]. split; [|exact H'].
    destruct pc; [split; [auto|lra]|lra].
Qed.

(** * Positive temperature *)
Lemma substeps_temp : forall phys floor safety s hs s', safety < 1 -> substeps phys floor safety s hs s' ->
  (forall tl xl, floor = Some (tl, xl) -> exists q, tl = Fin q /\ 0 < q) ->
  forall t, temp s = Fin t -> 0 < t -> exists t', temp s' = Fin t' /\ 0 < t'.
Proof.
  intros phys floor safety s hs s' Hs H Hf. induction H as [s|s h s1 hs s2 A B IH]; intros t Et Ht.
  - eauto.
  - destruct A as (t0 & x & dt & dx & t' & x' & -> & _ & D & _ & _ & F & _ & ->). cbn in Et. injection Et as ->.
    apply (IH t'); [reflexivity|].
    assert (P : 0 < t + dt).
    { rewrite (Qabs_pos t) in D by lra. apply Qabs_Qle_condition in D. nra. }
    unfold floored in F. destruct floor as [[f xl]|]; [|rewrite F; exact P].
    destruct F as (l0 & -> & [[_ ->]|[_ ->]]); [|exact P].
    destruct (Hf _ _ eq_refl) as (q & Eq & Pq). injection Eq as ->. exact Pq.
Qed.

(** * Absorption *)
Lemma outgoing_ok : forall expf mp sigma threshold density x size incoming,
  (forall e, e <= 0 -> 0 <= expf e <= 1) -> 0 < mp -> 0 <= sigma -> 0 <= density -> 0 <= size -> 0 <= x <= 1 -> 0 <= threshold ->
  let out := get_outgoing_rate expf mp sigma threshold density x size incoming in
  0 <= out /\ (incoming < threshold -> out == 0) /\ (0 <= incoming -> out <= incoming).
Proof.
  intros expf mp sigma threshold density x size incoming He Hm Hs Hd Hz Hx Ht. unfold get_outgoing_rate.
  assert (A : - (density / mp * (1 - x)) * sigma * size <= 0).
  { assert (0 <= density / mp * (1 - x) * sigma * size).
    { repeat apply Qmult_le_0_compat; try lra. apply Qinv_le_0_compat. lra. }
    lra. }
  specialize (He _ A). cbv zeta. destruct (Qlt_bool incoming threshold) eqn:E.
  - split; [lra|]. split; [reflexivity|auto].
  - apply Qlt_bool_false in E. revert He. generalize (expf (- (density / mp * (1 - x)) * sigma * size)). intros q He.
    split; [apply Qmult_le_0_compat; lra|]. split; [lra|]. intro H. nra.
Qed.

Lemma one_update_temp : forall (pc : bool) safety phys h t x s' r, safety < 1 -> (pc = true -> x <= 1 - eps) -> 0 < t ->
  update_abundances pc safety phys h (Chem (Fin t) (Fin x)) = Some (s', r) -> exists t', temp s' = Fin t' /\ 0 < t'.
Proof.
  intros pc safety phys h t x s' r Hs Hx Ht. unfold update_abundances.
  assert (Hb : safety < big) by (unfold big; lra).
  set (fl := if pc then _ else _). set (lo := if pc then x else eps).
  assert (Hlo : lo <= 1 - eps) by (unfold lo; destruct pc; [auto|pose proof eps_pos; lra]).
  assert (Hf : (fl = None /\ lo = eps) \/ exists tl, fl = Some (Fin tl, Fin lo)).
  { unfold fl, lo. cbn [temp frac]. destruct pc; [right; eauto|left; auto]. }
  destruct (perform_ok phys fl safety lo Hlo Hf Hb h t x) as (s0 & s1 & r1 & hs & C & _ & E & _ & S & _ & _).
  rewrite E. intro X. injection X as <- <-.
  assert (C0 : exists t0, temp s0 = Fin t0 /\ 0 < t0).
  { destruct (clamp_ok fl lo Hlo Hf t x) as (t0 & x0 & C' & F & _). rewrite C in C'. injection C' as ->.
    exists t0. split; [reflexivity|]. unfold fl in F. cbn [temp frac] in F. destruct pc; cbn [floored] in F; [|rewrite F; auto].
    destruct F as (l0 & L & [[_ ->]|[_ ->]]); [injection L as <-; exact Ht|exact Ht]. }
  destruct C0 as (t0 & T0 & P0).
  refine (substeps_temp phys fl safety s0 hs s1 Hs S _ t0 T0 P0).
  intros tl xl Hfl. unfold fl in Hfl. cbn [temp frac] in Hfl. destruct pc; [|discriminate]. injection Hfl as <- _. eauto.
Qed.

Local Opaque internal perform_timestep update_abundances.
Lemma updates_temp : forall pc safety l t x r, safety < 1 -> (pc = true -> 0 < x <= 1 - eps) -> 0 < t ->
  updates pc safety l (Chem (Fin t) (Fin x)) = Some r -> forall s, In s r -> exists t', temp s = Fin t' /\ 0 < t'.
Proof.
  intros pc safety l. induction l as [|[phys h] l IH]; intros t x r Hs Hx Ht E s Hin; cbn [updates] in E.
  - injection E as <-. destruct Hin.
  - assert (Hb : safety < big) by (unfold big; lra).
    destruct (one_update pc safety phys h t x Hb) as (s' & r' & U & t' & x' & -> & Hbd & Htt); [intro; apply Hx; auto|].
    rewrite U in E. destruct (one_update_temp pc safety phys h t x _ _ Hs (fun p => proj2 (Hx p)) Ht U) as (t2 & T2 & P2).
    cbn in T2. injection T2 as <-.
    destruct (updates pc safety l _) as [r2|] eqn:E2; [|discriminate]. cbn in E. injection E as <-.
    destruct Hin as [<-|Hin]; [exists t'; auto|].
    apply (IH t' x' r2 Hs); auto. intro p. specialize (Hx p). rewrite p in Hbd. lra.
Qed.

(** * Statements about whole steps *)
Lemma perform_spec : forall phys floor safety lo h t x, lo <= 1 - eps ->
  ((floor = None /\ lo = eps) \/ exists tl, floor = Some (Fin tl, Fin lo)) -> safety < big ->
  exists t0 x0 s' r hs,
    floored floor t t0 /\ limited floor x x0
    /\ perform_timestep phys floor safety (Chem (Fin t) (Fin x)) h = Some (s', r)
    /\ substeps phys floor safety (Chem (Fin t0) (Fin x0)) hs s' /\ Forall (halved 101 h) hs
    /\ (total hs == h \/ (r = Fin (h / 10) /\ (0 < h -> total hs < h))).
Proof.
  intros phys floor safety lo h t x Hlo Hf Hs.
  destruct (perform_ok phys floor safety lo Hlo Hf Hs h t x) as (s0 & s' & r & hs & C & _ & E & _ & Hsub & Hh & Ht).
  destruct (clamp_ok floor lo Hlo Hf t x) as (t0 & x0 & C' & F & L & _). rewrite C in C'. injection C' as ->.
  exists t0, x0, s', r, hs. auto 10.
Qed.

Lemma update_accept : forall v dc f h, ~ v == 0 -> Qabs dc <= f * Qabs v -> f < big ->
  exists r, update (Fin v) (Fin dc) f h = Some (Fin (v + dc), r).
Proof.
  intros v dc f h Hv Hd Hf. unfold update. change inv_epsilon with (Fin big).
  cbn [ndiv]. destruct (Qeq_bool v 0) eqn:E; [apply Qeq_bool_eq in E; contradiction|].
  cbn [nabs nmin nlt].
  assert (A : Qabs (dc / v) <= f).
  { assert (P : 0 < Qabs v) by (apply Qabs_case; intro; [|lra]; destruct (Qlt_le_dec 0 v); [auto|exfalso; apply Hv; lra] || (destruct (Qlt_le_dec v 0); [lra|exfalso; apply Hv; lra])).
    assert (Y : Qabs dc == Qabs (dc / v) * Qabs v) by (rewrite <- Qabs_Qmult; apply Qabs_wd; field; exact Hv).
    rewrite Y in Hd. apply Qmult_lt_0_le_reg_r with (z := Qabs v); auto. }
  assert (B : Qlt_bool big (Qabs (dc / v)) = false) by (apply Qlt_bool_false; lra).
  rewrite B. cbn [nlt]. assert (D : Qlt_bool f (Qabs (dc / v)) = false) by (apply Qlt_bool_false; exact A).
  rewrite D. eauto.
Qed.

Section Whole.
  Variable phys : physics.
  Variable floor : option (num * num).
  Variable safety : Q.
  Variable lo : Q.
  Hypothesis Hlo : lo <= 1 - eps.
  Hypothesis Hpos : 0 < lo.
  Hypothesis Hfloor : (floor = None /\ lo = eps) \/ exists tl, floor = Some (Fin tl, Fin lo) /\ 0 < tl.
  Hypothesis Hsafety : safety < 1.

  Lemma Hf' : (floor = None /\ lo = eps) \/ exists tl, floor = Some (Fin tl, Fin lo).
  Proof. destruct Hfloor as [H|(tl & H & _)]; eauto. Qed.
  Lemma Hb' : safety < big. Proof. unfold big. lra. Qed.
  Lemma Hfl : forall tl xl, floor = Some (tl, xl) -> exists q, tl = Fin q /\ 0 < q.
  Proof. intros tl xl H. destruct Hfloor as [[-> _]|(q & -> & P)]; [discriminate|]. injection H as <- _. eauto. Qed.

  Local Transparent internal.
  Lemma whole_internal : forall k n h s t, (k < n)%nat -> inb floor lo s -> temp s = Fin t -> 0 < t ->
    (forall t x, 0 < t -> lo <= x <= 1 - eps -> acceptable phys safety (halvings k h) t x) ->
    exists s' r, internal phys floor safety n h s = Some (s', Some r).
  Proof.
    induction k as [|k IH]; intros n h s t Hn Hi Ht Hp Ha; (destruct n as [|n]; [lia|]);
      cbn [internal]; rewrite (clamp_id floor lo Hlo Hf' s Hi).
    - assert (X : exists s' r, try_update phys floor safety s h = Some (s', Some r)).
      { destruct Hi as (t0 & x & -> & Hx & _). cbn in Ht. injection Ht as ->.
        destruct (Ha t x Hp Hx) as (dt & dx & A1 & A2 & A3 & A4). cbn [halvings] in *.
        unfold try_update. cbn [temp frac]. rewrite A1.
        destruct (update_accept t dt safety h) as (r1 & U1); [lra|exact A2|exact Hb'|]. rewrite U1, A3.
        destruct (update_accept x dx safety h) as (r2 & U2); [lra|exact A4|exact Hb'|]. rewrite U2.
        destruct (clamp_ok floor lo Hlo Hf' (t + dt) (x + dx)) as (t' & x' & C & _). rewrite C. eauto. }
      destruct X as (s' & r & X). rewrite X. eauto.
    - destruct (try_ok phys floor safety lo Hlo Hf' Hb' s h Hi) as [(s' & r & E & _)|(s' & E)]; rewrite E; [eauto|].
      assert (Er : Chem (temp s) (frac s) = s) by (destruct s; reflexivity). rewrite Er.
      destruct (IH n (h / 2) s t ltac:(lia) Hi Ht Hp Ha) as (s1 & r1 & E1). rewrite E1.
      destruct (internal_ok phys floor safety lo Hlo Hf' Hb' n (h / 2) s Hi) as (s1' & r1' & hs & E1' & I1 & S1 & _).
      rewrite E1 in E1'. injection E1' as <- _.
      destruct (substeps_temp phys floor safety s hs s1 Hsafety S1 Hfl t Ht Hp) as (t1 & T1 & P1).
      exact (IH n (h / 2) s1 t1 ltac:(lia) I1 T1 P1 Ha).
  Qed.
  Local Opaque internal.

  Lemma perform_whole : forall h t x k, (k <= 100)%nat -> 0 < t ->
    (forall t x, 0 < t -> lo <= x <= 1 - eps -> acceptable phys safety (halvings k h) t x) ->
    exists t0 x0 s' r hs,
      floored floor t t0 /\ limited floor x x0
      /\ perform_timestep phys floor safety (Chem (Fin t) (Fin x)) h = Some (s', r)
      /\ substeps phys floor safety (Chem (Fin t0) (Fin x0)) hs s' /\ total hs == h.
  Proof.
    intros h t x k Hk Ht Ha. destruct (clamp_ok floor lo Hlo Hf' t x) as (t0 & x0 & C & F & L & I0).
    assert (P0 : 0 < t0).
    { unfold floored in F. destruct Hfloor as [[E _]|(tl & E & Ptl)]; rewrite E in F; [rewrite F; exact Ht|].
      destruct F as (l0 & El & [[_ ->]|[_ ->]]); [injection El as <-; exact Ptl|exact Ht]. }
    destruct (whole_internal k 101 h _ t0 ltac:(lia) I0 eq_refl P0 Ha) as (s' & r & E).
    destruct (internal_ok phys floor safety lo Hlo Hf' Hb' 101 h _ I0) as (s1 & r1 & hs & E1 & _ & Hsub & _ & T).
    rewrite E in E1. injection E1 as <- <-.
    exists t0, x0, s', r, hs. split; [exact F|]. split; [exact L|]. split; [|split; [exact Hsub|exact T]].
    Local Transparent perform_timestep. unfold perform_timestep.
    rewrite (internal_clamped phys floor safety 101 h _ _ C (clamp_id floor lo Hlo Hf' _ I0)), E. reflexivity.
  Qed.
End Whole.

Lemma failed_step : exists phys safety h s s' r, 0 < h /\ 0 < safety
  /\ perform_timestep phys None safety s h = Some (s', r)
  /\ (forall s0 hs, substeps phys None safety s hs s0 -> hs = []).
Proof.
  exists (Physics (fun _ _ => Fin 1000) (fun _ _ => Fin 0)), (1 # 10), 1, (Chem (Fin 100) (Fin (1 # 2))).
  exists (Chem (Fin 100) (Fin (1 # 2))), (Fin (1 / 10)). split; [reflexivity|]. split; [reflexivity|]. split; [vm_compute; reflexivity|].
  intros s0 hs H. inversion H as [|? h1 s1 hs1 ? A]; subst; [reflexivity|]. exfalso.
  destruct A as (t & x & dt & dx & t' & x' & E & D & B & _). injection E as <- <-. cbn in D. injection D as <-.
  vm_compute in B. apply B. reflexivity.
Qed.

Lemma ex_exp : forall q, q <= 0 -> 0 <= (if Qle_bool q 0 then 1 / (1 - q) else 2) <= 1.
Proof.
  intros q H. assert (E : Qle_bool q 0 = true) by (apply Qle_bool_iff; exact H). rewrite E.
  split; [apply Qle_shift_div_l; lra|apply Qle_shift_div_r; lra].
Qed.

Local Transparent internal perform_timestep update_abundances.
Lemma internal_none : forall phys floor safety n h s, clamp floor s = None -> internal phys floor safety n h s = None.
Proof. intros phys floor safety n h s H. destruct n; cbn [internal]; rewrite H; reflexivity. Qed.
Lemma full_fraction : exists s, frac s = Fin 1 /\ forall safety phys h, update_abundances true safety phys h s = None.
Proof.
  exists (Chem (Fin 100) (Fin 1)). split; [reflexivity|]. intros safety phys h.
  unfold update_abundances, perform_timestep. rewrite internal_none; [reflexivity|]. vm_compute. reflexivity.
Qed.
