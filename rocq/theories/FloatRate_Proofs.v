(** Proofs about the rates with rounding. *)
From Coq Require Import ZArith List Reals Lra Lia Psatz Arith Bool.
From Flocq Require Import Core IEEE754.BinarySingleNaN Relative.
From Verif Require Import Float_Model Float_Spec Float_Proofs FloatTime_Model FloatTime_Spec FloatTime_Proofs FloatRate_Model FloatRate_Spec.
Import ListNotations.
Local Open Scope R_scope.

Definition tiny : R := bpow radix2 (-1074).
Lemma rnd_gen x : Rabs (rnd x - x) <= u * Rabs x + tiny.
Proof.
  assert (U : 0 < u) by (unfold u; apply bpow_gt_0). pose proof (Rabs_pos x) as P. pose proof (bpow_gt_0 radix2 (-1074)) as B.
  destruct (Rle_or_lt (bpow radix2 (-1022)) (Rabs x)) as [H|H].
  - pose proof (rnd_rel x H). unfold tiny. lra.
  - assert (L : Rabs x <= bpow radix2 (-1020)).
    { assert (bpow radix2 (-1022) < bpow radix2 (-1020)) by (apply bpow_lt; lia). lra. }
    pose proof (rnd_err x (-1020) ltac:(lia) L) as E. change (-1020 - 54)%Z with (-1074)%Z in E. unfold tiny. nra.
Qed.

(** ** The exact rate in terms of the state *)
Fixpoint weighted (ws os : list f64) : R :=
  match ws, os with w :: ws', o :: os' => value w * value o + weighted ws' os' | _, _ => 0 end.

Lemma replace_length j x l : length (replace j x l) = length l.
Proof. revert j; induction l as [|y l IH]; intros [|j]; cbn; auto. Qed.
Lemma weighted_replace ws : forall j x os, (j < length ws)%nat -> length os = length ws ->
  weighted ws (replace j x os) = weighted ws os + value (nth j ws zero) * (value x - value (nth j os zero)).
Proof.
  induction ws as [|w ws IH]; intros j x os J L; [cbn in J; lia|]. destruct os as [|o os]; [discriminate|].
  destruct j as [|j]; cbn.
  - lra.
  - rewrite IH; [lra | cbn in J; lia | cbn in L; lia].
Qed.
Lemma weighted_bound M ws os : Forall a_weight ws -> Forall (a_rate M) os -> 0 <= M -> 0 <= weighted ws os <= sum_of ws * M.
Proof.
  intros W. revert os. induction W as [|w ws [Fw Pw] W IH]; intros os O HM; cbn.
  - lra.
  - assert (S : 0 <= sum_of ws).
    { clear IH. induction W as [|v vs [_ Pv] _ IHv]; cbn; lra. }
    destruct O as [|o os [Fo Po] O]; cbn.
    + assert (0 <= value w * M) by (apply Rmult_le_pos; lra). assert (0 <= sum_of ws * M) by (apply Rmult_le_pos; lra). lra.
    + specialize (IH os O HM). assert (0 <= value w * value o <= value w * M).
      { split; [apply Rmult_le_pos; lra | apply Rmult_le_compat_l; lra]. } lra.
Qed.
Lemma sum_of_nonneg ws : Forall a_weight ws -> 0 <= sum_of ws.
Proof. induction 1 as [|w ws [_ P] _ IH]; cbn; lra. Qed.
Lemma nth_weight ws j : Forall a_weight ws -> (j < length ws)%nat -> fin (nth j ws zero) /\ 0 <= val (nth j ws zero) <= sum_of ws.
Proof.
  intros W. revert j. induction W as [|w ws [F P] W IH]; intros j J; [cbn in J; lia|].
  pose proof (sum_of_nonneg ws W) as S. destruct j as [|j]; cbn.
  - change (value w) with (val w) in *. repeat split; [exact F | lra | lra].
  - destruct (IH j ltac:(cbn in J; lia)) as [A B]. repeat split; [exact A | lra | lra].
Qed.
Lemma nth_rate M os j : Forall (a_rate M) os -> 0 <= M -> fin (nth j os zero) /\ 0 <= val (nth j os zero) <= M.
Proof.
  intros O HM. revert j. induction O as [|o os [F P] O IH]; intros [|j]; cbn; try (split; [reflexivity | cbn; lra]).
  - exact (conj F P).
  - apply IH.
Qed.
Lemma replace_rates M os j r : Forall (a_rate M) os -> a_rate M r -> Forall (a_rate M) (replace j r os).
Proof. intros O R. revert j. induction O as [|o os A O IH]; intros [|j]; cbn; constructor; auto. Qed.

(** The state after the events: lengths, ranges, and the error of the incoming rate. *)
Definition good (ws : list f64) (M e : R) (s : link) : Prop :=
  length (outs s) = length ws /\ Forall (a_rate M) (outs s) /\ fin (incoming s) /\
  Rabs (val (incoming s) - weighted ws (outs s)) <= e.

Lemma tiny_small B : bpow radix2 (-900) <= B -> tiny <= u * B / 4.
Proof.
  intro H. assert (E : tiny <= u * bpow radix2 (-900) / 4).
  { unfold tiny, u. rewrite <- bpow_plus. replace (bpow radix2 (-53 + -900) / 4) with (bpow radix2 (-955)).
    - apply bpow_le. lia.
    - replace (-53 + -900)%Z with (-955 + 2)%Z by lia. rewrite bpow_plus. replace (bpow radix2 2) with 4 by (cbn; lra). lra. }
  assert (0 < u) by (unfold u; apply bpow_gt_0). nra.
Qed.

Lemma step_good ws M e s ev : Forall a_weight ws -> moderate M -> moderate (sum_of ws * M) -> 0 <= e <= sum_of ws * M ->
  possible (length ws) M ev -> good ws M e s -> good ws M (e + 8 * u * (sum_of ws * M)) (step ws s ev).
Proof.
  intros W [M1 M2] [B1 B2] [E1 E2] P (L & O & F & E). set (B := sum_of ws * M) in *.
  assert (U : 0 < u) by (unfold u; apply bpow_gt_0). assert (U1 : u <= / 1000) by (rewrite u_eq; lra).
  pose proof (bpow_gt_0 radix2 (-900)) as BP. pose proof big_small as BS. pose proof (tiny_small B B1) as TB. pose proof (tiny_small M M1) as TM.
  assert (T0 : 0 < tiny) by (unfold tiny; apply bpow_gt_0).
  assert (BS4 : 8 * bpow radix2 900 <= bpow radix2 1000).
  { change 8 with (bpow radix2 3). rewrite <- bpow_plus. apply bpow_le. lia. }
  assert (PM : 0 <= M) by lra.
  assert (UB : 0 < u * B) by (apply Rmult_lt_0_compat; lra).
  destruct ev as [j r|]; cbn [step].
  - destruct P as [J Pr]. pose proof Pr as [Fr Vr]. destruct (nth_weight ws j W J) as [Fw Vw]. destruct (nth_rate M (outs s) j O PM) as [Fo Vo].
    set (w := nth j ws zero) in *. set (o := nth j (outs s) zero) in *. change (value r) with (val r) in *.
    pose proof (weighted_replace ws j r (outs s) J L) as WR. fold w in WR. fold o in WR. change (value ?x) with (val x) in WR.
    pose proof (replace_rates M (outs s) j r O Pr) as O'.
    pose proof (weighted_bound M ws (outs s) W O PM) as WB. pose proof (weighted_bound M ws _ W O' PM) as WB'. fold B in WB, WB'.
    set (X := weighted ws (outs s)) in *. set (X' := weighted ws (replace j r (outs s))) in *.
    assert (WM : val w * M <= B) by (unfold B; apply Rmult_le_compat_r; lra).
    destruct (sub_val r o Fr Fo) as [Fc Vc]. { apply Rabs_le. lra. }
    set (c := sub r o) in *. set (d := val r - val o) in *. assert (D : Rabs d <= M) by (apply Rabs_le; unfold d; lra).
    pose proof (rnd_gen d) as Ec. rewrite <- Vc in Ec.
    assert (Ec1 : Rabs (val c - d) <= u * M + tiny) by nra.
    assert (C2 : Rabs (val c) <= 2 * M).
    { replace (val c) with ((val c - d) + d) by ring. eapply Rle_trans; [apply Rabs_triang|].
      assert (u * M <= M / 4) by nra. nra. }
    assert (CW : Rabs (val c * val w) <= 2 * B).
    { rewrite Rabs_mult, (Rabs_pos_eq (val w)) by lra. pose proof (Rabs_pos (val c)).
      apply Rle_trans with (2 * M * val w); [apply Rmult_le_compat_r; lra | lra]. }
    destruct (mul_val c w Fc Fw) as [Fp Vp]. { lra. }
    set (p := mul c w) in *. pose proof (rnd_gen (val c * val w)) as Ep. rewrite <- Vp in Ep.
    assert (Ep1 : Rabs (val p - val w * d) <= 4 * (u * B)).
    { replace (val p - val w * d) with ((val p - val c * val w) + (val c - d) * val w) by ring.
      eapply Rle_trans; [apply Rabs_triang|]. rewrite (Rabs_mult (val c - d)), (Rabs_pos_eq (val w)) by lra.
      assert (Rabs (val c - d) * val w <= (u * M + u * M / 4) * val w) by (apply Rmult_le_compat_r; lra).
      assert (u * M * val w <= u * B) by nra. nra. }
    assert (IE : Rabs (val (incoming s) + val p - X') <= e + 4 * (u * B)).
    { rewrite WR. replace (val (incoming s) + val p - (X + val w * d)) with ((val (incoming s) - X) + (val p - val w * d)) by ring.
      eapply Rle_trans; [apply Rabs_triang|]. lra. }
    assert (I3 : Rabs (val (incoming s) + val p) <= 3 * B).
    { replace (val (incoming s) + val p) with ((val (incoming s) + val p - X') + X') by ring.
      eapply Rle_trans; [apply Rabs_triang|]. rewrite (Rabs_pos_eq X') by lra. nra. }
    destruct (add_val (incoming s) p F Fp) as [Fi Vi]. { lra. }
    unfold good. cbn [outs incoming]. fold p. split; [rewrite replace_length; exact L|]. split; [exact O'|]. split; [exact Fi|].
    pose proof (rnd_gen (val (incoming s) + val p)) as Ei. rewrite <- Vi in Ei. fold X'.
    replace (val (add (incoming s) p) - X') with
      ((val (add (incoming s) p) - (val (incoming s) + val p)) + (val (incoming s) + val p - X')) by ring.
    eapply Rle_trans; [apply Rabs_triang|].
    assert (u * Rabs (val (incoming s) + val p) <= u * (3 * B)) by (apply Rmult_le_compat_l; lra). lra.
  - pose proof (weighted_bound M ws (outs s) W O PM) as WB.
    unfold good. cbn [outs incoming]. split; [exact L|]. split; [exact O|]. unfold make_positive.
    rewrite lt_val by (exact F || reflexivity). change (val zero) with 0.
    destruct (Rlt_bool_spec (val (incoming s)) 0) as [N|N].
    + split; [reflexivity|]. apply Rabs_le_inv in E. change (val zero) with 0. apply Rabs_le. lra.
    + split; [exact F|]. lra.
Qed.

Lemma run_snoc ws l e : run ws (l ++ [e]) = step ws (run ws l) e.
Proof. unfold run. now rewrite fold_left_app. Qed.

Lemma start_good ws M : 0 <= M -> good ws M 0 (start ws).
Proof.
  intro HM. unfold good, start. cbn [outs incoming]. split; [apply map_length|]. split.
  - apply Forall_forall. intros x H. apply in_map_iff in H. destruct H as [_ [<- _]]. split; [reflexivity | cbn; lra].
  - split; [reflexivity|]. replace (weighted ws (map (fun _ => zero) ws)) with 0.
    + change (val zero) with 0. rewrite Rminus_0_r, Rabs_R0. lra.
    + induction ws as [|w ws IH]; cbn; [reflexivity|]. rewrite <- IH. cbn. lra.
Qed.

Lemma run_good ws M events : Forall a_weight ws -> moderate M -> moderate (sum_of ws * M) ->
  Forall (possible (length ws) M) events -> 8 * u * INR (length events) <= 1 ->
  good ws M (8 * u * INR (length events) * (sum_of ws * M)) (run ws events).
Proof.
  intros W HM HB. assert (U : 0 < u) by (unfold u; apply bpow_gt_0). pose proof (bpow_gt_0 radix2 (-900)) as BP.
  induction events as [|e l IH] using rev_ind; intros P N.
  - cbn [length INR]. rewrite Rmult_0_r, Rmult_0_l. apply start_good. destruct HM; lra.
  - apply Forall_app in P. destruct P as [P Q]. inversion Q; subst.
    rewrite app_length in *. cbn [length] in *. rewrite plus_INR in *. cbn [INR] in *.
    pose proof (pos_INR (length l)) as PI. assert (N' : 8 * u * INR (length l) <= 1) by nra.
    assert (BB : 0 < sum_of ws * M) by (destruct HB; lra).
    rewrite run_snoc. replace (8 * u * (INR (length l) + 1) * (sum_of ws * M)) with
      (8 * u * INR (length l) * (sum_of ws * M) + 8 * u * (sum_of ws * M)) by ring.
    apply step_good; try assumption.
    + assert (0 <= 8 * u * INR (length l)) by (apply Rmult_le_pos; lra). split; [apply Rmult_le_pos; lra | nra].
    + apply IH; assumption.
Qed.

(** ** The last rates *)
Definition about (j : nat) (e : event) : bool := match e with Upwind i _ => Nat.eqb i j | Own => false end.
Lemma last_rate_snoc j l e : last_rate j (l ++ [e]) = match e with Upwind i r => if Nat.eqb i j then value r else last_rate j l | Own => last_rate j l end.
Proof.
  induction l as [|a l IH].
  - destruct e as [i r|]; cbn; [|reflexivity]. now rewrite andb_true_r.
  - destruct a as [i' r'|]; cbn [app last_rate]; [|exact IH].
    rewrite existsb_app. cbn [existsb]. rewrite IH. destruct (existsb _ l); destruct e as [i r|]; destruct (Nat.eqb i' j); cbn;
      try reflexivity; destruct (Nat.eqb i j); reflexivity.
Qed.

Lemma nth_replace j x l : forall i, (j < length l)%nat -> nth i (replace j x l) zero = if Nat.eqb j i then x else nth i l zero.
Proof.
  revert j. induction l as [|y l IH]; intros j i J; [cbn in J; lia|]. destruct j as [|j], i as [|i]; cbn; try reflexivity.
  apply IH. cbn in J. lia.
Qed.

Lemma outs_last ws M events j : Forall (possible (length ws) M) events ->
  length (outs (run ws events)) = length ws /\ value (nth j (outs (run ws events)) zero) = last_rate j events.
Proof.
  induction events as [|e l IH] using rev_ind; intro P.
  - cbn. split; [apply map_length|]. revert j. induction ws as [|w ws IHw]; intros [|j]; cbn; try reflexivity. apply IHw. constructor.
  - apply Forall_app in P. destruct P as [P Q]. inversion Q as [|? ? Pe _]; subst. destruct (IH P) as [L V].
    rewrite run_snoc, last_rate_snoc. destruct e as [i r|]; cbn [step outs].
    + destruct Pe as [J _]. split; [now rewrite replace_length|]. rewrite nth_replace by (rewrite L; exact J).
      destruct (Nat.eqb i j); [reflexivity | exact V].
    + exact (conj L V).
Qed.

Lemma weighted_entering ws events : forall k os, length os = length ws ->
  (forall i, value (nth i os zero) = last_rate (k + i) events) -> weighted ws os = entering_from k ws events.
Proof.
  induction ws as [|w ws IH]; intros k os L H; destruct os as [|o os]; try discriminate; [reflexivity|].
  cbn [weighted entering_from]. pose proof (H 0%nat) as H0. cbn [nth] in H0. rewrite Nat.add_0_r in H0. rewrite H0.
  rewrite (IH (S k) os); [reflexivity | cbn in L; lia|]. intro i. specialize (H (S i)). cbn [nth] in H. rewrite H. f_equal. lia.
Qed.

Lemma incoming_error ws M events : Forall a_weight ws -> moderate M -> moderate (sum_of ws * M) ->
  Forall (possible (length ws) M) events -> (Z.of_nat (length events) <= 2 ^ 50)%Z ->
  finite (incoming (run ws events)) /\
  Rabs (value (incoming (run ws events)) - entering ws events) <= INR (length events) * bpow radix2 (-50) * (sum_of ws * M).
Proof.
  intros W HM HB P N. apply INR_pow in N; [|lia].
  assert (E8 : bpow radix2 (-50) = 8 * u).
  { unfold u. change 8 with (bpow radix2 3). rewrite <- bpow_plus. reflexivity. }
  assert (N' : 8 * u * INR (length events) <= 1).
  { rewrite <- E8. rewrite Rmult_comm. cbn in N. cbn. lra. }
  destruct (run_good ws M events W HM HB P N') as (L & O & F & E). split; [exact F|].
  unfold entering. rewrite <- (weighted_entering ws events 0 (outs (run ws events))).
  - rewrite E8. replace (INR (length events) * (8 * u) * (sum_of ws * M)) with (8 * u * INR (length events) * (sum_of ws * M)) by ring. exact E.
  - exact L.
  - intro i. exact (proj2 (outs_last ws M events i P)).
Qed.

Lemma own_not_negative ws M events : Forall a_weight ws -> moderate M -> moderate (sum_of ws * M) ->
  Forall (possible (length ws) M) events -> (Z.of_nat (length events) <= 2 ^ 50)%Z ->
  0 <= value (incoming (run ws (events ++ [Own]))).
Proof.
  intros W HM HB P N. destruct (incoming_error ws M events W HM HB P N) as [F _]. rewrite run_snoc. cbn [step incoming].
  unfold make_positive. rewrite lt_val by (exact F || reflexivity). change (val zero) with 0.
  destruct (Rlt_bool_spec (val (incoming (run ws events))) 0) as [H|H]; [cbn; lra | exact H].
Qed.

(** ** Shares of the faces *)
Lemma area_le_total areas : Forall a_step areas -> (Z.of_nat (length areas) <= 2 ^ 52)%Z -> total areas <= bpow radix2 900 ->
  forall a, In a areas -> val a <= val (time_after areas).
Proof.
  induction areas as [|d l IH] using rev_ind; intros A N T a H; [contradiction|].
  pose proof (time_grows l d A) as G. rewrite app_length in N. cbn [length] in N.
  assert (N' : (Z.of_nat (length l) <= 2 ^ 52)%Z) by lia. specialize (G N' T).
  apply Forall_app in A. destruct A as [A D]. inversion D as [|? ? [Fd [Ld Ud]] _]; subst.
  rewrite total_app in T. cbn [total] in T. pose proof (total_nonneg l A) as Q. pose proof (bpow_gt_0 radix2 (-900)) as B.
  apply in_app_or in H. destruct H as [H|[<-|[]]].
  - eapply Rle_trans; [apply (IH A N' ltac:(lra) a H)|]. exact G.
  - clear G. assert (Fl : fin (time_after l) /\ 0 <= val (time_after l) <= bpow radix2 900 + bpow radix2 900).
    { destruct (time_close l A N' ltac:(lra)) as [F E]. split; [exact F|]. unfold relatively_close in E. apply Rabs_le_inv in E.
      apply INR_pow in N'; [|lia]. pose proof (pos_INR (length l)) as P. cbn in N'.
      assert (X : 0 <= INR (length l) * eps <= 1) by (rewrite eps_eq; lra).
      assert (Y : 0 <= INR (length l) * eps * total l <= total l) by nra. change (value ?x) with (val x) in E. lra. }
    destruct Fl as [F [P1 P2]]. assert (BS4 : 8 * bpow radix2 900 <= bpow radix2 1000).
    { change 8 with (bpow radix2 3). rewrite <- bpow_plus. apply bpow_le. lia. }
    rewrite time_after_snoc. unfold advance. change (value d) with (val d) in *.
    destruct (add_val (time_after l) d F Fd) as [F' V]. { rewrite Rabs_pos_eq by lra. lra. }
    rewrite V. rewrite <- (rnd_fmt (val d) (fmt_val _)) at 1. apply rnd_le. lra.
Qed.

Lemma div_share a t : fin a -> 0 <= val a <= val t -> 0 < val t ->
  fin (div a t) /\ 0 <= val (div a t) <= 1 /\ Rabs (val (div a t) - val a / val t) <= u * (val a / val t) + tiny.
Proof.
  intros F H T. assert (Q : 0 <= val a / val t <= 1).
  { split; [apply Rmult_le_pos; [lra | left; now apply Rinv_0_lt_compat]|]. apply (Rmult_le_reg_r (val t)); [exact T|].
    unfold Rdiv. rewrite Rmult_assoc, Rinv_l by lra. lra. }
  assert (B : 1 <= bpow radix2 1000) by (change 1 with (bpow radix2 0); apply bpow_le; lia).
  destruct (div_val a t F) as [F' V]; [lra | rewrite Rabs_pos_eq by lra; lra |]. split; [exact F'|]. rewrite V. split.
  - split.
    + rewrite <- rnd_0. apply rnd_le. lra.
    + rewrite <- (rnd_fmt 1). { apply rnd_le. lra. } change 1 with (bpow radix2 0). apply fmt_bpow. lia.
  - pose proof (rnd_gen (val a / val t)) as E. rewrite (Rabs_pos_eq (val a / val t)) in E by lra. exact E.
Qed.

Lemma sum_shares t l : 0 < val t -> (forall a, In a l -> fin a /\ 0 <= val a <= val t) ->
  Rabs (sum_of (map (fun a => div a t) l) - total l / val t) <= u * (total l / val t) + INR (length l) * tiny.
Proof.
  intros T. induction l as [|a l IH]; intro H.
  - cbn. unfold Rdiv. rewrite !Rmult_0_l, Rminus_0_r, Rabs_R0. lra.
  - cbn [map sum_of total length]. rewrite S_INR. destruct (H a (or_introl eq_refl)) as [F V].
    destruct (div_share a t F V T) as (_ & _ & E). specialize (IH (fun b Hb => H b (or_intror Hb))).
    change (value ?x) with (val x) in *.
    replace ((val a + total l) / val t) with (val a / val t + total l / val t) by (unfold Rdiv; ring).
    match goal with |- Rabs (?x + ?y - (?p + ?q)) <= _ => replace (x + y - (p + q)) with ((x - p) + (y - q)) by ring end.
    eapply Rle_trans; [apply Rabs_triang|]. lra.
Qed.

Lemma shares_close areas : Forall a_step areas -> areas <> [] -> (Z.of_nat (length areas) <= 2 ^ 40)%Z -> total areas <= bpow radix2 900 ->
  Forall (fun w => finite w /\ 0 <= value w <= 1) (shares areas) /\
  Rabs (sum_of (shares areas) - 1) <= INR (length areas) * bpow radix2 (-50).
Proof.
  intros A NE N T. assert (N' : (Z.of_nat (length areas) <= 2 ^ 52)%Z) by lia.
  pose proof (area_le_total areas A N' T) as LT.
  destruct (time_close areas A N' T) as [F E]. unfold shares. change (fold_left add areas zero) with (time_after areas).
  set (t := time_after areas) in *. pose proof (bpow_gt_0 radix2 (-900)) as B.
  assert (TP : 0 < total areas /\ 1 <= INR (length areas)).
  { destruct areas as [|a l]; [congruence|]. inversion A as [|? ? [_ [L _]] A']; subst. pose proof (total_nonneg l A'). cbn [total length].
    rewrite S_INR. pose proof (pos_INR (length l)). lra. }
  destruct TP as [TP N1]. unfold relatively_close in E. rewrite eps_u in E. change (value t) with (val t) in E.
  assert (K : INR (length areas) <= bpow radix2 40) by (apply INR_pow; [exact N | lia]).
  replace (bpow radix2 40) with 1099511627776 in K by (cbn; lra).
  set (n := INR (length areas)) in *. set (T' := total areas) in *.
  assert (U : 0 < u) by (unfold u; apply bpow_gt_0).
  assert (NU : n * (2 * u) <= / 4) by (rewrite u_eq; lra).
  apply Rabs_le_inv in E. assert (VT : 3 / 4 * T' <= val t) by nra. assert (VT0 : 0 < val t) by lra.
  assert (IN : forall a, In a areas -> fin a /\ 0 <= val a <= val t).
  { intros a H. rewrite Forall_forall in A. destruct (A a H) as [Fa [La _]]. split; [exact Fa|]. split; [|now apply LT].
    change (value a) with (val a) in La. lra. }
  split.
  - apply Forall_forall. intros w H. apply in_map_iff in H. destruct H as [a [<- H]]. destruct (IN a H) as [Fa Va].
    destruct (div_share a t Fa Va VT0) as (F1 & V1 & _). exact (conj F1 V1).
  - pose proof (sum_shares t areas VT0 IN) as S. fold T' in S. fold n in S. set (q := T' / val t) in *.
    assert (Q : q * val t = T') by (unfold q; field; lra).
    assert (Q0 : 0 < q) by (unfold q; apply Rdiv_lt_0_compat; lra).
    assert (Q43 : q <= 4 / 3) by nra.
    assert (QE : Rabs (q - 1) <= 4 / 3 * (n * (2 * u))).
    { apply Rabs_le. assert (X1 : q * (val t - T') <= q * (n * (2 * u) * T')) by (apply Rmult_le_compat_l; lra).
      assert (X2 : q * (- (n * (2 * u) * T')) <= q * (val t - T')) by (apply Rmult_le_compat_l; lra).
      assert (Y : q * (val t - T') = T' * (1 - q)) by (rewrite Rmult_minus_distr_l, Q; ring). rewrite Y in X1, X2.
      assert (Z : q * (n * (2 * u) * T') = T' * (q * (n * (2 * u)))) by ring.
      assert (Z2 : q * (- (n * (2 * u) * T')) = T' * (- (q * (n * (2 * u))))) by ring. rewrite Z in X1. rewrite Z2 in X2.
      apply Rmult_le_reg_l in X1; [|exact TP]. apply Rmult_le_reg_l in X2; [|exact TP].
      assert (q * (n * (2 * u)) <= 4 / 3 * (n * (2 * u))) by (apply Rmult_le_compat_r; nra). lra. }
    assert (E8 : bpow radix2 (-50) = 8 * u).
    { unfold u. change 8 with (bpow radix2 3). rewrite <- bpow_plus. reflexivity. }
    rewrite E8. match goal with |- Rabs (?s - 1) <= _ => replace (s - 1) with ((s - q) + (q - 1)) by ring end.
    eapply Rle_trans; [apply Rabs_triang|]. eapply Rle_trans; [apply Rplus_le_compat; [exact S | exact QE]|].
    assert (TI : tiny <= u / 4).
    { pose proof (tiny_small 1) as X. rewrite Rmult_1_r in X. apply X. change 1 with (bpow radix2 0). apply bpow_le. lia. }
    assert (n * tiny <= n * (u / 4)) by (apply Rmult_le_compat_l; lra).
    assert (u * q <= u * (4 / 3)) by (apply Rmult_le_compat_l; lra). nra.
Qed.

(** ** The outgoing rate *)
Lemma outgoing_bounds threshold fraction inc : finite threshold -> finite fraction -> 0 <= value fraction <= 1 -> finite inc ->
  0 <= value inc <= bpow radix2 900 ->
  let out := outgoing threshold fraction inc in finite out /\ 0 <= value out <= value inc /\
  (value inc < value threshold -> value out = 0) /\
  (value threshold <= value inc -> Rabs (value out - value inc * value fraction) <= bpow radix2 (-53) * (value inc * value fraction) + bpow radix2 (-1074)).
Proof.
  intros Ft Ff Vf Fi Vi. cbv zeta. unfold outgoing. rewrite lt_val by assumption. change (value ?x) with (val x) in *.
  destruct (Rlt_bool_spec (val inc) (val threshold)) as [H|H].
  - change (val zero) with 0. split; [reflexivity|]. split; [lra|]. split; [reflexivity|]. intro. lra.
  - assert (P : 0 <= val inc * val fraction <= val inc) by nra.
    assert (B : bpow radix2 900 < bpow radix2 1000) by (apply bpow_lt; lia).
    destruct (mul_val inc fraction Fi Ff) as [F V]. { rewrite Rabs_pos_eq by lra. lra. }
    split; [exact F|]. rewrite V. split; [split|split].
    + rewrite <- rnd_0. apply rnd_le. lra.
    + rewrite <- (rnd_fmt (val inc) (fmt_val inc)) at 2. apply rnd_le. lra.
    + intro. lra.
    + intros _. pose proof (rnd_gen (val inc * val fraction)) as E. rewrite (Rabs_pos_eq (val inc * val fraction)) in E by lra. exact E.
Qed.

(** ** Not a number *)
Lemma nan_spreads ws s j events : incoming (fold_left (step ws) (Upwind j B754_nan :: events) s) = B754_nan.
Proof.
  cbn [fold_left]. set (s' := step ws s (Upwind j B754_nan)).
  assert (H : incoming s' = B754_nan).
  { unfold s'. cbn [step incoming]. destruct (incoming s) as [? |? | |? ? ? ?]; reflexivity. }
  clearbody s'. clear s. revert s' H. induction events as [|e l IH]; intros s H; [exact H|]. cbn [fold_left]. apply IH.
  destruct e as [i r|]; cbn [step incoming]; rewrite H; reflexivity.
Qed.
Lemma nan_outgoing threshold fraction : outgoing threshold fraction B754_nan = B754_nan.
Proof. reflexivity. Qed.

(** ** Witnesses *)
Definition faint : f64 := lit 1 (-60).
Lemma faint_value : value faint = bpow radix2 (-60).
Proof.
  change (value faint) with (val faint). unfold faint. destruct (val_lit 1 (-60)) as [E|E].
  - rewrite E, Rmult_1_l. apply rnd_fmt, fmt_bpow. lia.
  - exfalso. rewrite Rmult_1_l, Rabs_pos_eq in E by apply bpow_ge_0. assert (bpow radix2 (-60) < bpow radix2 1000) by (apply bpow_lt; lia). lra.
Qed.
Lemma faint_ok : finite faint /\ 0 <= value faint <= 1.
Proof. split; [reflexivity|]. rewrite faint_value. cbn. lra. Qed.
Lemma one_ok : finite one /\ 0 <= value one <= 1.
Proof. split; [reflexivity|]. rewrite one_value. lra. Qed.

Lemma moderate_1 : moderate 1.
Proof. split; change 1 with (bpow radix2 0); apply bpow_le; lia. Qed.
Lemma one_weight : Forall a_weight [one] /\ sum_of [one] = 1.
Proof. split; [constructor; [|constructor]; split; [reflexivity | rewrite one_value; lra]|]. cbn [sum_of]. rewrite one_value. lra. Qed.

Lemma rate_lost : exists ws M events, Forall a_weight ws /\ moderate M /\ moderate (sum_of ws * M) /\
  Forall (possible (length ws) M) events /\ 0 < entering ws events /\ value (incoming (run ws events)) = 0.
Proof.
  exists [one], 1, [Upwind 0 one; Upwind 0 faint]. destruct one_weight as [W S]. rewrite S, Rmult_1_r.
  split; [exact W|]. split; [exact moderate_1|]. split; [exact moderate_1|]. split.
  - constructor; [|constructor; [|constructor]]; (split; [cbn; lia|]); [exact one_ok | exact faint_ok].
  - split.
    + unfold entering. cbn [entering_from last_rate existsb Nat.eqb andb orb negb]. rewrite one_value, faint_value. cbn. lra.
    + assert (E : incoming (run [one] [Upwind 0 one; Upwind 0 faint]) = zero) by (vm_compute; reflexivity). rewrite E. reflexivity.
Qed.

Definition dark_events : list event := [Upwind 0 one; Upwind 0 faint; Upwind 0 zero].
Lemma negative_val x : fin x -> lt x zero = true -> val x < 0.
Proof.
  intros F E. rewrite lt_val in E; [|exact F|reflexivity]. change (val zero) with 0 in E. destruct (Rlt_bool_spec (val x) 0) as [H|H]; [exact H | discriminate].
Qed.
Lemma rate_negative : exists ws M events, Forall a_weight ws /\ moderate M /\ moderate (sum_of ws * M) /\
  Forall (possible (length ws) M) events /\ ~ In Own events /\ value (incoming (run ws events)) < 0 /\
  value (rate_of_site zero zero (incoming (run ws events))) < 0.
Proof.
  exists [one], 1, dark_events. destruct one_weight as [W S]. rewrite S, Rmult_1_r.
  split; [exact W|]. split; [exact moderate_1|]. split; [exact moderate_1|]. split; [|split; [|split]].
  - constructor; [|constructor; [|constructor; [|constructor]]]; (split; [cbn; lia|]); [exact one_ok | exact faint_ok | split; [reflexivity | cbn; lra]].
  - cbn. intuition discriminate.
  - apply negative_val; vm_compute; reflexivity.
  - apply negative_val; vm_compute; reflexivity.
Qed.

Lemma rate_of_site_close i s p : finite i -> finite s -> finite p -> 0 <= value i <= bpow radix2 900 -> 0 <= value s <= bpow radix2 900 ->
  0 <= value p <= bpow radix2 900 ->
  finite (rate_of_site i s p) /\ 0 <= value (rate_of_site i s p) /\
  Rabs (value (rate_of_site i s p) - (value i + value s + value p)) <= bpow radix2 (-51) * (value i + value s + value p) + bpow radix2 (-1072).
Proof.
  intros Fi Fs Fp Vi Vs Vp. change (value ?x) with (val x) in *. unfold rate_of_site.
  assert (BS4 : 8 * bpow radix2 900 <= bpow radix2 1000).
  { change 8 with (bpow radix2 3). rewrite <- bpow_plus. apply bpow_le. lia. }
  pose proof (bpow_gt_0 radix2 900) as B. assert (U : 0 < u) by (unfold u; apply bpow_gt_0). assert (U1 : u <= / 1000) by (rewrite u_eq; lra).
  assert (B1 : 1 <= bpow radix2 900) by (change 1 with (bpow radix2 0); apply bpow_le; lia).
  assert (T1 : 0 < tiny <= 1).
  { split; [unfold tiny; apply bpow_gt_0|]. change 1 with (bpow radix2 0). apply bpow_le. lia. }
  destruct (add_val i s Fi Fs) as [F1 V1]. { rewrite Rabs_pos_eq by lra. lra. }
  pose proof (rnd_gen (val i + val s)) as E1. rewrite <- V1, (Rabs_pos_eq (val i + val s)) in E1 by lra.
  assert (P1 : 0 <= val (add i s)). { rewrite V1, <- rnd_0. apply rnd_le. lra. }
  set (r := add i s) in *. pose proof (Rabs_le_inv _ _ E1) as [L1 H1].
  assert (R1 : val r <= 4 * bpow radix2 900) by nra.
  destruct (add_val r p F1 Fp) as [F2 V2]. { rewrite Rabs_pos_eq by lra. lra. }
  pose proof (rnd_gen (val r + val p)) as E2. rewrite <- V2, (Rabs_pos_eq (val r + val p)) in E2 by lra.
  split; [exact F2|]. split. { rewrite V2, <- rnd_0. apply rnd_le. lra. }
  replace (bpow radix2 (-51)) with (4 * u) by (unfold u; change 4 with (bpow radix2 2); rewrite <- bpow_plus; reflexivity).
  replace (bpow radix2 (-1072)) with (4 * tiny) by (unfold tiny; change 4 with (bpow radix2 2); rewrite <- bpow_plus; reflexivity).
  replace (val (add r p) - (val i + val s + val p)) with ((val (add r p) - (val r + val p)) + (val r - (val i + val s))) by ring.
  eapply Rle_trans; [apply Rabs_triang|]. nra.
Qed.
