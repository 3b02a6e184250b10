(** Splitting of the outgoing rate, independence of the distribution over ranks,
    message counts and levels. *)
From Coq Require Import List Arith Bool Lia Permutation QArith Qcanon.
From Verif Require Import Sweep_Model Sweep_Spec Sweep_Util Sweep_Local Sweep_Inv Sweep_Count
  Sweep_Steps Sweep_Steps2 Sweep_Steps3 Sweep_Safety Sweep_Value Sweep_Value2 Sweep_Exists Sweep_Live
  Sweep_Live2 Sweep_Levels.
Import ListNotations.
Local Open Scope nat_scope.

(** ** Sums and order on Qc *)
Lemma Qcsum_scale : forall A (f : A -> Qc) k l,
  Qcsum (map (fun a => k * f a)%Qc l) = (k * Qcsum (map f l))%Qc.
Proof. induction l as [|a l IH]; [cbn; rewrite Qcmult_0_r; reflexivity|]. cbn [map]. rewrite !Qcsum_cons, IH. ring. Qed.

Lemma Qcplus_nonneg : forall a b, (0 <= a)%Qc -> (0 <= b)%Qc -> (0 <= a + b)%Qc.
Proof.
  intros a b Ha Hb. apply (Qcle_trans _ (0 + 0)%Qc); [rewrite Qcplus_0_l; apply Qcle_refl|].
  apply Qcplus_le_compat; auto.
Qed.

Lemma Qcsum_nonneg : forall A (f : A -> Qc) l, (forall a, In a l -> (0 <= f a)%Qc) -> (0 <= Qcsum (map f l))%Qc.
Proof.
  induction l as [|a l IH]; intros H; [apply Qcle_refl|]. cbn [map]. rewrite Qcsum_cons.
  apply Qcplus_nonneg; [apply H; left; auto|apply IH; intros; apply H; right; auto].
Qed.

Lemma Qcmult_nonneg : forall a b, (0 <= a)%Qc -> (0 <= b)%Qc -> (0 <= a * b)%Qc.
Proof.
  intros a b Ha Hb. apply (Qcle_trans _ (0 * b)%Qc); [rewrite Qcmult_0_l; apply Qcle_refl|].
  apply Qcmult_le_compat_r; auto.
Qed.

Lemma Qcinv_nonneg : forall a, (0 <= a)%Qc -> (0 <= / a)%Qc.
Proof.
  intros a Ha. destruct (Qc_eq_dec a 0) as [->|Hn]; [apply Qcle_refl|].
  apply Qcnot_lt_le. intros H.
  assert (Hp : (0 < a)%Qc) by (apply Qcle_lt_or_eq in Ha; destruct Ha; [auto|congruence]).
  assert (X : (a * / a < a * 0)%Qc).
  { rewrite (Qcmult_comm a (/ a)), (Qcmult_comm a 0). apply Qcmult_lt_compat_r; auto. }
  rewrite Qcmult_inv_r, Qcmult_0_r in X by auto. discriminate X.
Qed.

Lemma downwind_pos : forall f d, downwind f d = true <-> (0 < f_dot f d)%Qc.
Proof. intros. unfold downwind, Qc_ltb. destruct (Qclt_le_dec 0 (f_dot f d)); split; auto; try discriminate. intros H. exfalso. apply (Qclt_not_le _ _ H); auto. Qed.

Section Shares.
  Variable G : config.

  Lemma total_positive : forall c d, (forall f, In f (faces G c) -> (0 < f_area f)%Qc) ->
    (exists f, In f (faces G c) /\ downwind f d = true) ->
    (0 < total_eff_area (faces G c) d)%Qc.
  Proof.
    intros c d Ha. unfold total_eff_area. induction (faces G c) as [|f fs IH]; intros (g & Hg & Hd); [destruct Hg|].
    assert (Hge : forall fs', (forall f, In f fs' -> (0 < f_area f)%Qc) ->
       (0 <= Qcsum (map (fun f => eff_area f d) (filter (fun f => downwind f d) fs')))%Qc).
    { intros fs' H'. apply Qcsum_nonneg. intros h Hh. apply filter_In in Hh. unfold eff_area.
      apply Qcmult_nonneg; apply Qclt_le_weak; [apply H'; tauto|apply downwind_pos; tauto]. }
    cbn [filter]. destruct (downwind f d) eqn:E.
    - cbn [map]. rewrite Qcsum_cons. apply (Qclt_le_trans _ (eff_area f d)).
      + unfold eff_area. apply (Qcle_lt_trans _ (0 * f_dot f d)%Qc); [rewrite Qcmult_0_l; apply Qcle_refl|].
        apply Qcmult_lt_compat_r; [apply downwind_pos; auto|apply Ha; left; auto].
      + rewrite <- (Qcplus_0_r (eff_area f d)) at 1. apply Qcplus_le_compat; [apply Qcle_refl|].
        apply Hge. intros; apply Ha; right; auto.
    - apply IH; [intros; apply Ha; right; auto|]. destruct Hg as [->|Hg]; [congruence|]. eauto.
  Qed.

  (** All of the change is handed on. *)
  Lemma shares_sum : forall c d corr, (forall f, In f (faces G c) -> (0 < f_area f)%Qc) ->
    (exists f, In f (faces G c) /\ downwind f d = true) ->
    Qcsum (map (fun f => corr * (eff_area f d / total_eff_area (faces G c) d))%Qc
             (filter (fun f => downwind f d) (faces G c))) = corr.
  Proof.
    intros c d corr Ha He. pose proof (total_positive c d Ha He) as Hp.
    rewrite Qcsum_scale.
    rewrite (Qcsum_map_ext _ _ (fun f => / total_eff_area (faces G c) d * eff_area f d)%Qc)
      by (intros; unfold Qcdiv; ring).
    rewrite Qcsum_scale. fold (total_eff_area (faces G c) d).
    rewrite (Qcmult_comm (/ _)), Qcmult_inv_r; [ring|]. intros E. rewrite E in Hp. discriminate Hp.
  Qed.

  Definition msum (l : list msg) : Qc := Qcsum (map m_rate l).
  Lemma msum_app : forall a b, msum (a ++ b) = (msum a + msum b)%Qc.
  Proof. intros. unfold msum. rewrite map_app. apply Qcsum_app. Qed.
  Lemma msum_flat_map : forall A (g : A -> list msg) l, msum (flat_map g l) = Qcsum (map (fun a => msum (g a)) l).
  Proof. induction l as [|a l IH]; [reflexivity|]. cbn [flat_map map]. rewrite msum_app, Qcsum_cons, IH. reflexivity. Qed.

End Shares.

(** ** Incoming rates are shares of outgoing rates *)
Section Balance.
  Variable G : config.
  Hypothesis HG : consistent G.

  (** What the cell gets from its upwind neighbours. *)
  Definition inflow (O : pid -> nat -> Qc) (c : pid) (d : nat) : Qc :=
    Qcsum (map (fun j => Qcsum (map (fun f =>
      if downwind f d && face_to c f then (O j d * share G j f d)%Qc else 0%Qc) (faces G j))) (cells G)).

  Definition all_active : Prop := forall cur c, In cur (sweeps G) -> In c (cells G) -> cur <= lev G c.

  Lemma share_nonneg : forall j f d, (forall f, In f (faces G j) -> (0 <= f_area f)%Qc) -> In f (faces G j) ->
    downwind f d = true -> (0 <= share G j f d)%Qc.
  Proof.
    intros j f d Ha Hf Hd. unfold share, Qcdiv. apply Qcmult_nonneg.
    - apply Qcmult_nonneg; auto. apply Qclt_le_weak, downwind_pos; auto.
    - apply Qcinv_nonneg, Qcsum_nonneg. intros g Hg. apply filter_In in Hg.
      apply Qcmult_nonneg; [apply Ha; tauto|]. apply Qclt_le_weak, downwind_pos; tauto.
  Qed.

  Lemma received_inflow : forall cur O O' c d, all_active -> In cur (sweeps G) -> In c (cells G) ->
    received G cur O O' c d = (inflow O' c d - inflow O c d)%Qc.
  Proof.
    intros cur O O' c d HA Hcur Hc. unfold received, inflow.
    assert (E : forall f, reaches G cur c f = face_to c f).
    { intros f. unfold reaches, face_to. destruct (f_nb f); auto.
      rewrite (proj2 (Nat.leb_le _ _) (HA cur c Hcur Hc)), andb_true_r. reflexivity. }
    assert (X : forall (f g : pid -> Qc) l, (Qcsum (map f l) - Qcsum (map g l))%Qc = Qcsum (map (fun a => f a - g a)%Qc l)).
    { clear. induction l as [|a l IH]; [cbn; ring|]. cbn [map]. rewrite !Qcsum_cons, <- IH. ring. }
    assert (Y : forall (f g : face -> Qc) l, (Qcsum (map f l) - Qcsum (map g l))%Qc = Qcsum (map (fun a => f a - g a)%Qc l)).
    { clear. induction l as [|a l IH]; [cbn; ring|]. cbn [map]. rewrite !Qcsum_cons, <- IH. ring. }
    rewrite X. apply Qcsum_map_ext. intros j Hj. rewrite Y.
    rewrite (proj2 (Nat.leb_le _ _) (HA cur j Hcur Hj)). apply Qcsum_map_ext. intros f _. rewrite E.
    destruct (downwind f d && face_to c f); ring.
  Qed.

  Lemma balance : forall P I O X, solution G P I O X -> all_active ->
    (forall c f, In c (cells G) -> In f (faces G c) -> (0 <= f_area f)%Qc) ->
    (forall c x q, (0 <= resp G c x q)%Qc) ->
    (forall c d, In c (cells G) -> d < ndirs G -> I 0 c d = inflow (O 0) c d) ->
    forall e, e <= length (sweeps G) -> forall c d, In c (cells G) -> d < ndirs G -> I e c d = inflow (O e) c d.
  Proof.
    intros P I O X HS HA Hpos Hresp H0. induction e as [|e IH]; intros He c d Hc Hd; [auto|].
    destruct (nth_error (sweeps G) e) as [cur|] eqn:Ecur; [|apply nth_error_None in Ecur; lia].
    assert (Hcur : In cur (sweeps G)) by (apply nth_error_In in Ecur; auto).
    rewrite (sol_in _ _ _ _ _ HS e cur c d Ecur Hc Hd), (proj2 (Nat.leb_le _ _) (HA cur c Hcur Hc)).
    rewrite (received_inflow cur (O e) (O (S e)) c d HA Hcur Hc), IH by (auto; lia).
    replace (inflow (O e) c d + (inflow (O (S e)) c d - inflow (O e) c d))%Qc with (inflow (O (S e)) c d) by ring.
    unfold Qcmax0. destruct (Qclt_le_dec (inflow (O (S e)) c d) 0) as [Hlt|]; [exfalso|reflexivity].
    apply (Qclt_not_le _ _ Hlt). unfold inflow. apply Qcsum_nonneg. intros j Hj. apply Qcsum_nonneg. intros f Hf.
    destruct (downwind f d && face_to c f) eqn:E; [|apply Qcle_refl]. apply andb_true_iff in E. destruct E as [E _].
    apply Qcmult_nonneg.
    - rewrite (sol_out _ _ _ _ _ HS e cur j d Ecur Hj Hd), (proj2 (Nat.leb_le _ _) (HA cur j Hcur Hj)). apply Hresp.
    - apply share_nonneg; auto. intros f0 Hf0. apply (Hpos j); auto.
  Qed.
End Balance.

(** ** The same grid distributed differently *)
Definition nb_map (f : pid -> pid) (n n' : nb) : Prop :=
  match n, n' with
  | Local p, Local q | Local p, Remote q | Remote p, Local q | Remote p, Remote q => q = f p
  | Boundary, Boundary => True
  | _, _ => False
  end.

Record relabelled (f : pid -> pid) (G G' : config) : Prop := {
  rl_cells : Permutation (cells G') (map f (cells G));
  rl_inj : forall p q, In p (cells G) -> In q (cells G) -> f p = f q -> p = q;
  rl_ndirs : ndirs G' = ndirs G;
  rl_sweeps : sweeps G' = sweeps G;
  rl_faces : forall c, In c (cells G) ->
      Forall2 (fun a b => f_area b = f_area a /\ (forall d, f_dot b d = f_dot a d) /\ nb_map f (f_nb a) (f_nb b))
        (faces G c) (faces G' (f c));
  rl_source : forall c, In c (cells G) -> source G' (f c) = source G c;
  rl_lev : forall c, In c (cells G) -> lev G' (f c) = lev G c;
  rl_resp : forall c x q, In c (cells G) -> resp G' (f c) x q = resp G c x q;
  rl_chemup : forall c x q, In c (cells G) -> chemup G' (f c) x q = chemup G c x q
}.

(** Cells swept only have neighbours swept downwind on other ranks. *)
Definition no_dropped (G : config) : Prop :=
  forall cur j fc p d, In cur (sweeps G) -> In j (cells G) -> cur <= lev G j -> In fc (faces G j) ->
    downwind fc d = true -> f_nb fc = Remote p -> cur <= lev G p.

Section Relabel.
  Variable f : pid -> pid.
  Variables G G' : config.
  Hypothesis HG : consistent G.
  Hypothesis HG' : consistent G'.
  Hypothesis HR : relabelled f G G'.
  Hypothesis HD : no_dropped G.
  Hypothesis HD' : no_dropped G'.

  Lemma Qcsum_Forall2 : forall A B (R : A -> B -> Prop) (g : A -> Qc) (h : B -> Qc) l l',
    Forall2 R l l' -> (forall a b, In a l -> In b l' -> R a b -> g a = h b) -> Qcsum (map g l) = Qcsum (map h l').
  Proof.
    intros A B R g h l l' H. induction H as [|a b l l' Hab Hl IH]; intros Hg; [reflexivity|].
    cbn [map]. rewrite !Qcsum_cons, IH, (Hg a b); cbn; auto. intros. apply Hg; cbn; auto.
  Qed.

  Lemma downwind_same : forall a b d, f_dot b d = f_dot a d -> downwind b d = downwind a d.
  Proof. intros a b d H. unfold downwind. rewrite H. reflexivity. Qed.

  Lemma share_same : forall c a b d, In c (cells G) -> f_area b = f_area a -> f_dot b d = f_dot a d ->
    share G' (f c) b d = share G c a d.
  Proof.
    intros c a b d Hc Ha Hd. unfold share. rewrite Ha, Hd. f_equal. rewrite !Qcsum_filter. symmetry.
    apply (Qcsum_Forall2 _ _ _ _ _ _ _ (rl_faces _ _ _ HR c Hc)).
    intros x y _ _ (E1 & E2 & _). rewrite (downwind_same x y d), E1, E2; auto.
  Qed.

  Lemma reaches_drop : forall H cur j fc c d, no_dropped H -> In cur (sweeps H) -> In j (cells H) ->
    cur <= lev H j -> In fc (faces H j) -> downwind fc d = true -> reaches H cur c fc = face_to c fc.
  Proof.
    intros H cur j fc c d D Hcur Hj Hl Hf Hd. unfold reaches, face_to. destruct (f_nb fc) as [p|p| |p|p] eqn:E; auto.
    destruct (pid_eqb_spec p c) as [->|]; [|reflexivity]. cbn [andb].
    apply Nat.leb_le. apply (D cur j fc c d); auto.
  Qed.

  Lemma received_same : forall cur O O' c d, In cur (sweeps G) -> In c (cells G) ->
    received G' cur O O' (f c) d = received G cur (fun j d => O (f j) d) (fun j d => O' (f j) d) c d.
  Proof.
    intros cur O O' c d Hcur Hc. unfold received.
    rewrite (Qcsum_map_perm _ _ _ _ (rl_cells _ _ _ HR)), map_map.
    apply Qcsum_map_ext. intros j Hj. rewrite (rl_lev _ _ _ HR j Hj).
    destruct (Nat.leb_spec cur (lev G j)) as [Hl|]; [|reflexivity]. symmetry.
    assert (Hcur' : In cur (sweeps G')) by (rewrite (rl_sweeps _ _ _ HR); auto).
    assert (Hj' : In (f j) (cells G')).
    { apply (Permutation_in _ (Permutation_sym (rl_cells _ _ _ HR))), in_map; auto. }
    apply (Qcsum_Forall2 _ _ _ _ _ _ _ (rl_faces _ _ _ HR j Hj)).
    intros a b Ha Hb (E1 & E2 & E3). rewrite (downwind_same a b d) by auto.
    destruct (downwind a d) eqn:Ed; [|reflexivity]. cbn [andb].
    rewrite (reaches_drop G cur j a c d) by auto.
    rewrite (reaches_drop G' cur (f j) b (f c) d); auto.
    2:{ rewrite (rl_lev _ _ _ HR j Hj). auto. }
    2:{ rewrite (downwind_same a b d); auto. }
    assert (E : face_to (f c) b = face_to c a).
    { assert (Hin : forall p, f_nb a = Local p \/ f_nb a = Remote p -> In p (cells G)).
      { intros p [E|E]; [apply (c_local _ HG j a p); auto|apply (c_remote _ HG j a p); auto]. }
      assert (Hpq : forall p q, In p (cells G) -> q = f p -> pid_eqb q (f c) = pid_eqb p c).
      { intros p q Hp ->. destruct (pid_eqb_spec (f p) (f c)) as [E|E], (pid_eqb_spec p c) as [E'|E']; auto.
        - exfalso. apply E', (rl_inj _ _ _ HR); auto.
        - congruence. }
      unfold face_to, nb_map in *.
      destruct (f_nb a) as [p|p| |p|p], (f_nb b) as [q|q| |q|q]; try contradiction; auto. }
    rewrite E, (share_same j a b d) by auto. reflexivity.
  Qed.

  (** A solution on the other distribution is one here. *)
  Lemma solution_same : forall P I O X,
    solution G' (fun c d => P c d) I O X ->
    solution G (fun c d => P (f c) d) (fun e c d => I e (f c) d) (fun e c d => O e (f c) d) (fun e c => X e (f c)).
  Proof.
    intros P I O X HS.
    assert (Hc' : forall c, In c (cells G) -> In (f c) (cells G')).
    { intros c Hc. apply (Permutation_in _ (Permutation_sym (rl_cells _ _ _ HR))), in_map; auto. }
    assert (Hrate : forall e c d, In c (cells G) ->
       rate_of G' (I e) P (f c) d = rate_of G (fun c d => I e (f c) d) (fun c d => P (f c) d) c d).
    { intros e c d Hc. unfold rate_of. rewrite (rl_source _ _ _ HR c Hc), (rl_ndirs _ _ _ HR). reflexivity. }
    constructor.
    - intros e cur c d He Hc Hd. assert (Hcur : In cur (sweeps G)) by (apply nth_error_In in He; auto).
      rewrite (sol_in _ _ _ _ _ HS e cur (f c) d); [|rewrite (rl_sweeps _ _ _ HR); auto|auto|rewrite (rl_ndirs _ _ _ HR); auto].
      rewrite (rl_lev _ _ _ HR c Hc), received_same by auto. reflexivity.
    - intros e cur c d He Hc Hd. assert (Hcur : In cur (sweeps G)) by (apply nth_error_In in He; auto).
      rewrite (sol_out _ _ _ _ _ HS e cur (f c) d); [|rewrite (rl_sweeps _ _ _ HR); auto|auto|rewrite (rl_ndirs _ _ _ HR); auto].
      rewrite (rl_lev _ _ _ HR c Hc), (rl_resp _ _ _ HR), Hrate by auto. reflexivity.
    - intros e cur c He Hc.
      rewrite (sol_chem _ _ _ _ _ HS e cur (f c)); [|rewrite (rl_sweeps _ _ _ HR); auto|auto].
      rewrite (rl_lev _ _ _ HR c Hc), (rl_chemup _ _ _ HR), (rl_ndirs _ _ _ HR) by auto.
      destruct (cur <=? lev G c); [|reflexivity]. f_equal. apply Qcsum_map_ext. intros d _. apply Hrate; auto.
  Qed.

  Hypothesis HN : non_periodic G.
  Hypothesis HN' : non_periodic G'.
  Hypothesis HA' : acyclic G'.

  Lemma distribution_independent : forall i o p x i' o' p' x' S S',
    (forall c d, In c (cells G) -> d < ndirs G -> i' (f c) d = i c d /\ o' (f c) d = o c d /\ p' (f c) d = p c d) ->
    (forall c, In c (cells G) -> x' (f c) = x c) ->
    reachable G i o p x S -> finished G S -> reachable G' i' o' p' x' S' -> finished G' S' ->
    forall c, In c (cells G) ->
      chem (rs S' (rank_of (f c))) (f c) = chem (rs S (rank_of c)) c /\
      forall d, d < ndirs G ->
        inc (rs S' (rank_of (f c))) (f c) d = inc (rs S (rank_of c)) c d /\
        out (rs S' (rank_of (f c))) (f c) d = out (rs S (rank_of c)) c d.
  Proof.
    intros i o p x i' o' p' x' S S' H1 H2 R F R' F' c Hc.
    destruct (solution_exists G' p' HA' i' o' x') as (I & O & X & E1 & E2 & E3 & HS).
    pose proof (solution_same p' I O X HS) as HS2.
    assert (Hc' : In (f c) (cells G')).
    { apply (Permutation_in _ (Permutation_sym (rl_cells _ _ _ HR))), in_map; auto. }
    destruct (finished_values G HG HN _ _ _ _ HS2 i o p x S) with (c := c) as [A B]; auto.
    { intros c0 d Hc0 Hd. destruct (H1 c0 d Hc0 Hd) as (<- & <- & <-). rewrite E1, E2. auto. }
    { intros c0 Hc0. rewrite E3. symmetry. auto. }
    destruct (finished_values G' HG' HN' _ _ _ _ HS i' o' p' x' S') with (c := f c) as [A' B']; auto.
    { intros. rewrite E1, E2. auto. }
    { intros. rewrite E3. auto. }
    rewrite (rl_sweeps _ _ _ HR) in A', B'. split; [congruence|]. intros d Hd.
    destruct (B d Hd) as (B1 & B2 & _). destruct (B' d) as (B1' & B2' & _); [rewrite (rl_ndirs _ _ _ HR); auto|].
    split; congruence.
  Qed.
End Relabel.

(** ** Levels *)
Section LevelExchange.
  Variable G : config.

  Lemma fold_insert : forall l h p, (forall m, In m l -> fst m = p -> snd m = lev G p) ->
    (exists m, In m l /\ fst m = p) -> fold_left insert_level l h p = Some (lev G p).
  Proof.
    intros l h p. revert h. induction l as [|m l IH] using rev_ind; intros h H (m0 & Hm0 & E0); [destruct Hm0|].
    rewrite fold_left_app. cbn [fold_left]. unfold insert_level at 1.
    destruct (pid_eqb_spec p (fst m)) as [Ep|Ep].
    - f_equal. apply H; [apply in_or_app; right; left; auto|auto].
    - apply IH.
      + intros m' Hm'. apply H. apply in_or_app; auto.
      + apply in_app_or in Hm0. destruct Hm0 as [Hm0|[->|[]]]; [eauto|congruence].
  Qed.

  Lemma in_level_msgs : forall s r m, In m (level_msgs G s r) <->
    In (fst m) (cells G) /\ rank_of (fst m) = s /\ snd m = lev G (fst m) /\
    exists f p, In f (faces G (fst m)) /\ (f_nb f = Remote p \/ f_nb f = RemotePeriodic p) /\ rank_of p = r.
  Proof.
    intros s r m. unfold level_msgs. rewrite in_flat_map. split.
    - intros (c & Hc & H). apply in_own_cells in Hc. destruct Hc as [Hc Hs]. apply in_flat_map in H. destruct H as (f & Hf & H).
      destruct (f_nb f) as [q|q| |q|q] eqn:E; try destruct H as [];
        destruct (Nat.eqb_spec (rank_of q) r) as [Er|Er]; try destruct H as []; try contradiction; subst m; cbn;
        (repeat split; auto; exists f, q; auto).
    - intros (Hc & Hs & El & f & p & Hf & Hn & Hr). exists (fst m). split; [apply in_own_cells; auto|].
      apply in_flat_map. exists f. split; auto. destruct m as [c l]. cbn [fst snd] in *. subst l.
      destruct Hn as [-> | ->]; rewrite Hr, Nat.eqb_refl; left; auto.
  Qed.

  (** After the exchange every rank knows the levels of the cells next to its
      own. *)
  Lemma levels_known : forall r h c f p,
    (forall c, In c (cells G) -> rank_of c < nranks G) ->
    (forall c f p, In c (cells G) -> In f (faces G c) -> (f_nb f = Remote p \/ f_nb f = RemotePeriodic p) ->
       In p (cells G) /\ rank_of p <> rank_of c /\
       exists f', In f' (faces G p) /\ (f_nb f' = Remote c \/ f_nb f' = RemotePeriodic c)) ->
    In c (cells G) -> rank_of c = r -> In f (faces G c) -> (f_nb f = Remote p \/ f_nb f = RemotePeriodic p) ->
    communicate_levels G r h p = Some (lev G p).
  Proof.
    intros r h c f p Hrk Hmut Hc Hr Hf Hn. unfold communicate_levels. apply fold_insert.
    - intros m Hm E. apply in_flat_map in Hm. destruct Hm as (s & _ & Hm). apply in_level_msgs in Hm.
      destruct Hm as (_ & _ & El & _). rewrite El, E. reflexivity.
    - exists (p, lev G p). split; [|reflexivity]. destruct (Hmut c f p Hc Hf Hn) as (Hp & Hne & f' & Hf' & Hn').
      apply in_flat_map. exists (rank_of p). split; [apply in_others; split; [auto|congruence]|].
      apply in_level_msgs. cbn. repeat split; auto. exists f', c. auto.
  Qed.
End LevelExchange.

(** ** Message counts *)
Section Counts.
  Variable G : config.
  Hypothesis HG : consistent G.

  (** Faces of active cells of [src] through which something flows to active
      cells of [dst]. *)
  Definition crossing (src dst cur : nat) : nat :=
    list_sum (map (fun c => list_sum (map (fun d =>
      countb (fun f => downwind f d &&
        match f_nb f with
        | Remote p | RemotePeriodic p => (rank_of p =? dst) && (cur <=? lev G p)
        | _ => false
        end) (faces G c)) (seq 0 (ndirs G))))
      (filter (fun c => (rank_of c =? src) && (cur <=? lev G c)) (cells G))).

  Lemma filter_filter : forall A (p q : A -> bool) l, filter p (filter q l) = filter (fun a => q a && p a) l.
  Proof.
    induction l as [|a l IH]; [reflexivity|]. cbn [filter]. destruct (q a); cbn [filter andb]; [|auto].
    destruct (p a); rewrite IH; reflexivity.
  Qed.

  Lemma counts_agree : forall r x e cur, nth_error (sweeps G) e = Some cur -> x <> r ->
    torecv_init G r cur x = crossing x r cur.
  Proof.
    intros r x e cur He Hx. rewrite (torecv_init_spec G HG r x e cur He Hx).
    unfold expected. rewrite length_flat_map. unfold Sweep_Inv.tasks.
    rewrite sum_list_prod. unfold crossing, own_cells. rewrite filter_filter.
    assert (Hact : forall p, act G e p = (cur <=? lev G p)) by (intros; unfold act; rewrite He; reflexivity).
    rewrite (filter_ext _ (fun c => (rank_of c =? x) && (cur <=? lev G c))) by (intros; rewrite Hact; reflexivity).
    apply list_sum_map_ext. intros c _. apply list_sum_map_ext. intros d _.
    unfold om. cbn [fst snd]. unfold omsgs. induction (faces G c) as [|f fs IH] in |- * at 2 3; [reflexivity|].
    cbn [flat_map]. rewrite app_length, countb_cons, IH. f_equal. unfold omsg1.
    destruct (downwind f d); [|reflexivity]. cbn [andb].
    destruct (f_nb f); try reflexivity; rewrite Hact, andb_comm; destruct ((rank_of p =? r) && (cur <=? lev G p)); reflexivity.
  Qed.
End Counts.
