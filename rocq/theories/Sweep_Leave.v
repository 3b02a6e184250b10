(** What holds when a rank leaves a sweep; which messages are taken; fair
    schedules exist. *)
From Coq Require Import List Arith Bool Lia Permutation QArith Qcanon.
From Verif Require Import Sweep_Model Sweep_Spec Sweep_Util Sweep_Local Sweep_Inv Sweep_Count
  Sweep_Steps Sweep_Steps2 Sweep_Steps3 Sweep_Safety Sweep_Live Sweep_Live2.
Import ListNotations.
Local Open Scope nat_scope.

Section Leave.
  Variable G : config.
  Hypothesis HG : consistent G.

  (** ** Counters of inactive cells *)
  Definition idle (cur : nat) (s s' : rstate) : Prop :=
    (forall c d, lev G c < cur -> miss s' c d = miss s c d) /\ ep s' = ep s.

  Lemma idle_refl : forall cur s, idle cur s s.
  Proof. split; auto. Qed.
  Lemma idle_trans : forall cur a b c, idle cur a b -> idle cur b c -> idle cur a c.
  Proof. intros cur a b c [H1 H2] [H3 H4]. split; [|congruence]. intros. rewrite H3, H1; auto. Qed.

  Lemma idle_local : forall r cur q d p s s', handle_local_neighbour G r cur q d p s = Some s' -> idle cur s s'.
  Proof.
    intros r cur q d p s s'. unfold handle_local_neighbour. destruct (own G r p); [|discriminate].
    destruct (Nat.leb_spec cur (lev G p)) as [Hl|Hl].
    - cbn [miss set_inc]. destruct (miss s p d) as [|m] eqn:E; [discriminate|]. intros H. injection H as <-.
      split; [|destruct (m =? 0); reflexivity].
      intros c d0 Hc. destruct (m =? 0); cbn; unfold updc;
        (destruct (pid_eqb_spec c p) as [->|]; [lia|reflexivity]).
    - intros H. injection H as <-. split; reflexivity.
  Qed.

  Lemma idle_lperiodic : forall r cur q d p s s', handle_local_periodic G r q d p s = Some s' -> idle cur s s'.
  Proof. intros r cur q d p s s'. unfold handle_local_periodic. destruct (own G r p); [|discriminate]. intros H. injection H as <-. split; reflexivity. Qed.

  Lemma idle_remote : forall r cur b q d p s s', handle_remote G r cur b q d p s = Some s' -> idle cur s s'.
  Proof.
    intros r cur b q d p s s'. unfold handle_remote. destruct (nb_active G r cur p) as [[]|]; [|intros H; injection H as <-; apply idle_refl|discriminate].
    destruct (is_remote_rank G r (rank_of p)); [|discriminate]. intros H. injection H as <-. split; reflexivity.
  Qed.

  Lemma idle_faces : forall r cur d corr tot fs s s', faces_loop G r cur d corr tot fs s = Some s' -> idle cur s s'.
  Proof.
    intros r cur d corr tot. induction fs as [|f fs IH]; intros s s' H; cbn in H.
    - injection H as <-. apply idle_refl.
    - destruct (face_step G r cur d corr tot f s) as [s1|] eqn:E; [|discriminate].
      apply idle_trans with s1; [|apply IH; auto]. unfold face_step in E.
      destruct (downwind f d); [|injection E as <-; apply idle_refl].
      destruct (f_nb f); eauto using idle_local, idle_remote, idle_lperiodic.
      injection E as <-; apply idle_refl.
  Qed.

  Lemma idle_solve : forall r cur c d s s', solve_task G r cur c d s = Some s' -> idle cur s s'.
  Proof.
    intros r cur c d s s' H. unfold solve_task in H. destruct (own G r c); [|discriminate].
    cbn [cnt set_out set_inc] in H. destruct (cnt s d); [discriminate|]. apply idle_faces in H. exact H.
  Qed.

  Lemma idle_recv : forall r cur b s s', recv_loop G r cur b s = Some s' -> idle cur s s'.
  Proof.
    intros r cur. induction b as [|m b IH]; intros s s' H; cbn in H.
    - injection H as <-. apply idle_refl.
    - destruct (if m_periodic m then _ else _) as [s1|] eqn:E; [|discriminate].
      apply idle_trans with s1; [|apply IH; auto]. destruct (m_periodic m); eauto using idle_local, idle_lperiodic.
  Qed.

  Definition zinv (S : state) : Prop := forall c d, In c (cells G) -> d < ndirs G ->
    act G (ep (rs S (rank_of c))) c = false -> miss (rs S (rank_of c)) c d = 0.

  Lemma all_zero : forall S r c d, inv G S -> zinv S -> r < nranks G -> loop_cond G r (rs S r) = false ->
    In c (cells G) -> rank_of c = r -> d < ndirs G -> miss (rs S r) c d = 0.
  Proof.
    intros S r c d J Z Hr Hl Hc Hcr Hd. destruct (act G (ep (rs S r)) c) eqn:Ea.
    - pose proof (i_rank _ _ J r Hr) as R. destruct (loop_cond_false G r _ Hl) as [H0 _].
      apply (r_solved0 _ _ _ R (c, d)). cbn [fst snd].
      destruct (solvedb (log (rs S r)) (ep (rs S r)) (c, d)) eqn:E; [apply solvedb_spec in E; exact E|exfalso].
      pose proof (all_dirs_solved G r _ R H0) as Hu.
      assert (Ht : In (c, d) (unsolved G (log (rs S r)) r (ep (rs S r)))).
      { apply in_unsolved. split; [apply in_tasks; cbn; auto|]. rewrite <- solvedb_spec, E. discriminate. }
      rewrite Hu in Ht. destruct Ht.
    - rewrite <- Hcr. apply Z; auto. rewrite Hcr. exact Ea.
  Qed.

  Lemma zinv_set : forall S r s' n m, r < nranks G -> zinv S ->
    (forall c d, In c (cells G) -> rank_of c = r -> d < ndirs G -> act G (ep s') c = false -> miss s' c d = 0) ->
    zinv (mkS (upd (rs S) r s') n m).
  Proof.
    intros S r s' n m Hr Z H c d Hc Hd. cbn [rs]. unfold upd. destruct (Nat.eqb_spec (rank_of c) r) as [E|E]; auto.
  Qed.

  Lemma zinv_same : forall S r s' n m, zinv S -> ep s' = ep (rs S r) -> miss s' = miss (rs S r) ->
    zinv (mkS (upd (rs S) r s') n m).
  Proof.
    intros S r s' n m Z E1 E2 c d Hc Hd. cbn [rs]. unfold upd. destruct (Nat.eqb_spec (rank_of c) r) as [E|E]; auto.
    rewrite E1, E2, <- E. apply Z; auto.
  Qed.

  Lemma zinv_idle : forall S r cur s' n m, zinv S -> nth_error (sweeps G) (ep (rs S r)) = Some cur ->
    idle cur (rs S r) s' -> zinv (mkS (upd (rs S) r s') n m).
  Proof.
    intros S r cur s' n m Z He [H1 H2] c d Hc Hd. cbn [rs]. unfold upd.
    destruct (Nat.eqb_spec (rank_of c) r) as [E|E]; auto.
    rewrite H2. intros Ha. rewrite H1; [rewrite <- E; apply Z; auto; rewrite E; auto|].
    unfold act in Ha. rewrite He in Ha. apply Nat.leb_gt in Ha. exact Ha.
  Qed.

  Lemma start_miss : forall r e s s', start_sweep G r e s = Some s' ->
    ep s' = e /\ forall c d, act G e c = false -> miss s' c d = miss s c d.
  Proof.
    intros r e s s' H. unfold start_sweep in H. unfold act. destruct (nth_error (sweeps G) e) as [cur|] eqn:Ee.
    - destruct (forallb _ _); [|discriminate]. injection H as <-. cbn [ep miss]. split; [auto|]. intros c d Ha.
      destruct (existsb (pid_eqb c) (active_cells G r cur)) eqn:E; [exfalso|reflexivity].
      apply existsb_exists in E. destruct E as (c' & Hin & E). destruct (pid_eqb_spec c c') as [->|]; [|discriminate].
      unfold active_cells in Hin. apply filter_In in Hin. destruct Hin as [_ Hin]. congruence.
    - injection H as <-. cbn. split; auto.
  Qed.

  Lemma step_zinv : forall S o S', inv G S -> zinv S -> step G S o = Some S' -> zinv S'.
  Proof.
    intros S o S' J Z H. destruct o as [r k|x y|x y eager]; cbn [step] in H.
    - destruct (Nat.ltb_spec r (nranks G)) as [Hr|]; [|injection H as <-; auto].
      unfold run_rank in H. destruct (pc (rs S r)) as [|[|x l]|n| |] eqn:Hpc.
      + destruct (loop_cond G r (rs S r)) eqn:Hl.
        * injection H as <-. apply zinv_same; auto.
        * destruct (start_sweep G r (Datatypes.S (ep (rs S r))) (update_chemistry G r (rs S r))) as [s'|] eqn:E; [|discriminate].
          injection H as <-. destruct (start_miss _ _ _ _ E) as [E1 E2].
          apply zinv_set; auto. intros c d Hc Hcr Hd Ha. rewrite E1 in Ha. rewrite E2 by auto.
          replace (miss (update_chemistry G r (rs S r)) c d) with (miss (rs S r) c d)
            by (unfold update_chemistry; destruct (nth_error (sweeps G) (ep (rs S r))); reflexivity).
          apply all_zero; auto.
      + injection H as <-. apply zinv_same; auto.
      + destruct (0 <? torecv (rs S r) x); [|injection H as <-; apply zinv_same; auto].
        destruct (mail S x r) as [|b rest]; [injection H as <-; apply zinv_same; auto|].
        destruct (nth_error (sweeps G) (ep (rs S r))) as [cur|] eqn:He; [|injection H as <-; apply zinv_same; auto].
        destruct (receive_batch G r cur x b (rs S r)) as [s'|] eqn:E; [|discriminate]. injection H as <-.
        unfold receive_batch in E. destruct (length b <=? torecv (rs S r) x); [|discriminate]. apply idle_recv in E.
        apply (zinv_idle S r cur); auto.
      + destruct (queue (rs S r)) as [|t0 q0] eqn:Hq; [injection H as <-; apply zinv_same; auto|].
        destruct (nth_error (t0 :: q0) _) as [[c d]|]; [|discriminate].
        destruct (nth_error (sweeps G) (ep (rs S r))) as [cur|] eqn:He; [|discriminate].
        destruct (solve_task G r cur c d _) as [s'|] eqn:E; [|discriminate]. injection H as <-.
        apply idle_solve in E. apply (zinv_idle S r cur); auto.
      + injection H as <-. apply zinv_same; auto.
      + injection H as <-. auto.
    - destruct (net S x y); injection H as <-; auto.
    - destruct (req (rs S x) y); try (injection H as <-; auto; fail).
      destruct (eager || _); injection H as <-; auto. apply zinv_same; auto.
  Qed.

  Lemma reachable_zinv : forall i o p x S, reachable G i o p x S -> zinv S.
  Proof.
    intros i o p x S (S0 & ops & H0 & H).
    assert (Z0 : zinv S0).
    { destruct (init_state G HG i o p x) as (S1 & E & Hs & _). rewrite H0 in E. injection E as <-.
      intros c d Hc Hd Ha. pose proof (Hs _ (c_rank _ HG c Hc)) as E. destruct (start_miss _ _ _ _ E) as [E1 E2].
      rewrite E1 in Ha. rewrite E2 by auto. reflexivity. }
    pose proof (init_inv G HG _ _ _ _ _ H0) as J0. clear H0. revert S0 J0 Z0 H.
    induction ops as [|op ops IH]; intros S0 J0 Z0 H; cbn in H; [injection H as <-; auto|].
    destruct (step_inv G HG S0 op J0) as (S1 & E & J1). rewrite E in H.
    apply (IH S1); auto. apply (step_zinv S0 op); auto.
  Qed.

  (** ** A rank leaving a sweep *)
  Lemma leaving : forall i o p x S r, reachable G i o p x S -> r < nranks G -> pc (rs S r) = PHead ->
    loop_cond G r (rs S r) = false ->
    queue (rs S r) = [] /\
    (forall y, y < nranks G -> y <> r -> tosend (rs S r) y = [] /\ buf (rs S r) y = []) /\
    (forall y m, y < nranks G -> y <> r ->
       In m (concat (mail S y r) ++ concat (net S y r) ++ tosend (rs S y) r) -> m_ep m <> ep (rs S r)) /\
    (forall c d, In c (cells G) -> rank_of c = r -> active_in G (ep (rs S r)) c -> d < ndirs G ->
       In (ep (rs S r), c, d) (log (rs S r))) /\
    (forall c d, In c (cells G) -> rank_of c = r -> d < ndirs G -> miss (rs S r) c d = 0).
  Proof.
    intros i o p x S r HR Hr Hpc Hl. pose proof (reachable_inv G HG _ _ _ _ _ HR) as J.
    pose proof (reachable_zinv _ _ _ _ _ HR) as Z. pose proof (i_rank _ _ J r Hr) as R.
    destruct (loop_cond_false G r _ Hl) as [H0 H1]. pose proof (all_dirs_solved G r _ R H0) as Hu.
    split; [|split; [|split; [|split]]].
    - destruct (queue (rs S r)) as [|t q] eqn:E; [reflexivity|exfalso].
      assert (Ht : In t (queue (rs S r))) by (rewrite E; left; auto).
      apply (r_queue _ _ _ R) in Ht. rewrite Hu in Ht. destruct Ht as [[] _].
    - intros y Hy Hyr. assert (Ho : In y (others G r)) by (apply in_others; auto).
      destruct (H1 y Ho) as [Hb _]. split; auto. apply (r_head _ _ _ R); auto.
    - intros y m Hy Hyr Hm E. assert (Ho : In y (others G r)) by (apply in_others; auto).
      pose proof (p_torecv _ _ _ _ _ _ _ _ _ (i_pair _ _ J y r Hy Hr Hyr)) as PT.
      rewrite (proj2 (H1 y Ho)) in PT. symmetry in PT. apply Nat.eq_add_0 in PT. destruct PT as [_ PT].
      apply length_zero_iff_nil in PT. unfold stream in PT. rewrite concat_app, <- app_assoc in PT.
      assert (Hin : In m (ofep (ep (rs S r)) (concat (mail S y r) ++ concat (net S y r) ++ tosend (rs S y) r))).
      { apply filter_In. split; auto. apply Nat.eqb_eq; auto. }
      rewrite PT in Hin. destruct Hin.
    - intros c d Hc Hcr Ha Hd.
      destruct (solvedb (log (rs S r)) (ep (rs S r)) (c, d)) eqn:E; [apply solvedb_spec in E; exact E|exfalso].
      assert (Ht : In (c, d) (unsolved G (log (rs S r)) r (ep (rs S r)))).
      { apply in_unsolved. split; [apply in_tasks; cbn; rewrite act_active; auto|].
        rewrite <- solvedb_spec, E. discriminate. }
      rewrite Hu in Ht. destruct Ht.
    - intros c d Hc Hcr Hd. apply all_zero; auto.
  Qed.

  (** ** The whole of the sweeps *)
  Lemma solved_once : forall i o p x S, reachable G i o p x S -> finished G S ->
    forall r, r < nranks G -> NoDup (log (rs S r)) /\
      forall e c d, In (e, c, d) (log (rs S r)) <->
        In c (cells G) /\ rank_of c = r /\ active_in G e c /\ d < ndirs G.
  Proof.
    intros i o p x S HR F r Hr. pose proof (reachable_inv G HG _ _ _ _ _ HR) as J.
    pose proof (i_rank _ _ J r Hr) as R. split; [apply (r_log_nodup _ _ _ R)|].
    intros e c d. split.
    - intros H. pose proof (r_log_in _ _ _ R e (c, d) H) as [Ht _]. apply in_tasks in Ht. cbn in Ht.
      rewrite act_active in Ht. tauto.
    - intros (Hc & Hcr & Ha & Hd). rewrite <- Hcr. apply (finished_solved G HG S e c d J F Hc). auto.
  Qed.

  (** In the log of a rank, newest first, no task is repeated and active cells of the rank
      which lie upwind were solved before. *)
  Lemma upwind_before : forall i o p x S, reachable G i o p x S ->
    forall e c d q f, In c (cells G) -> In (e, c, d) (log (rs S (rank_of c))) -> In f (faces G c) ->
      upwind f d = true -> (f_nb f = Local q \/ f_nb f = Remote q) -> active_in G e q ->
      In (e, q, d) (log (rs S (rank_of q))).
  Proof.
    intros i o p x S HR e c d q f Hc Hl Hf Hu Hn Ha. pose proof (reachable_inv G HG _ _ _ _ _ HR) as J.
    apply (i_order _ _ J e c d q f); auto.
    - unfold face_to. destruct Hn as [-> | ->]; apply pid_eqb_refl.
    - apply act_active; auto.
  Qed.

  (** ** Taking messages *)
  Lemma takes_current : forall i o p x S S' y k a, reachable G i o p x S ->
    step G S (Run y k) = Some S' -> a < nranks G -> y < nranks G -> a <> y -> mail S' a y <> mail S a y ->
    exists b, mail S a y = b :: mail S' a y /\ b <> [] /\
      forall m, In m b -> m_ep m = ep (rs S y) /\ active_in G (ep (rs S y)) (m_id m) /\ rank_of (m_id m) = y.
  Proof.
    intros i o p x S S' y k a HR H Ha Hy Hay Hne. pose proof (reachable_inv G HG _ _ _ _ _ HR) as J.
    cbn [step] in H. rewrite (proj2 (Nat.ltb_lt _ _) Hy) in H. unfold run_rank in H.
    destruct (pc (rs S y)) as [|[|z l]|n| |] eqn:Hpc.
    - destruct (loop_cond G y (rs S y)); [injection H as <-; exfalso; apply Hne; reflexivity|].
      destruct (start_sweep G y _ _); [|discriminate]. injection H as <-. exfalso; apply Hne; reflexivity.
    - injection H as <-; exfalso; apply Hne; reflexivity.
    - destruct (Nat.ltb_spec 0 (torecv (rs S y) z)) as [Htr|]; [|injection H as <-; exfalso; apply Hne; reflexivity].
      destruct (mail S z y) as [|b rest] eqn:Em; [injection H as <-; exfalso; apply Hne; reflexivity|].
      destruct (nth_error (sweeps G) (ep (rs S y))) as [cur|]; [|injection H as <-; exfalso; apply Hne; reflexivity].
      destruct (receive_batch G y cur z b (rs S y)); [|discriminate]. injection H as <-. cbn [mail] in *.
      unfold upd2 in *. destruct (Nat.eqb_spec a z) as [->|]; [|exfalso; apply Hne; reflexivity].
      rewrite Nat.eqb_refl in *. cbn [andb] in *. exists b. split; [exact Em|].
      pose proof (i_pair _ _ J z y Ha Hy Hay) as P. unfold stream in P. rewrite Em in P.
      split; [apply (p_batch _ _ _ _ _ _ _ _ _ P b); left; auto|]. intros m Hm.
      assert (E : m_ep m = ep (rs S y)).
      { apply (head_batch_epoch G S z y b (rest ++ net S z y)); auto. unfold stream. rewrite Em. reflexivity. }
      split; [exact E|].
      destruct (p_dest _ _ _ _ _ _ _ _ _ P m) as (_ & Hrk & _ & Hact).
      { cbn [app concat]. apply in_or_app. left. apply in_or_app. left. exact Hm. }
      rewrite E in Hact. apply act_active in Hact. auto.
    - destruct (queue (rs S y)) as [|t0 q0]; [injection H as <-; exfalso; apply Hne; reflexivity|].
      destruct (nth_error (t0 :: q0) _) as [[c d]|]; [|discriminate].
      destruct (nth_error (sweeps G) (ep (rs S y))) as [cur|]; [|discriminate].
      destruct (solve_task G y cur c d _); [|discriminate]. injection H as <-. exfalso; apply Hne; reflexivity.
    - injection H as <-; exfalso; apply Hne; reflexivity.
    - injection H as <-; exfalso; apply Hne; reflexivity.
  Qed.

  Lemma single_sweep_batches : forall i o p x S a y b, reachable G i o p x S -> a < nranks G -> y < nranks G -> a <> y ->
    In b (mail S a y ++ net S a y) ->
    b <> [] /\ exists e, ep (rs S y) <= e <= ep (rs S a) /\ forall m, In m b -> m_ep m = e.
  Proof.
    intros i o p x S a y b HR Ha Hy Hay Hb. pose proof (reachable_inv G HG _ _ _ _ _ HR) as J.
    pose proof (i_pair _ _ J a y Ha Hy Hay) as P.
    destruct (p_batch _ _ _ _ _ _ _ _ _ P b Hb) as [Hn He]. split; auto.
    destruct b as [|m b]; [congruence|]. exists (m_ep m). split.
    - apply (p_tags _ _ _ _ _ _ _ _ _ P). apply in_or_app; left. apply in_concat. exists (m :: b). split; auto. left; auto.
    - intros m' Hm'. apply He; auto. left; auto.
  Qed.

  (** ** Termination *)
  Lemma fair_terminates : acyclic G -> forall i o p x S sched n, reachable G i o p x S -> fair G sched ->
    exists len S', exec G S (segment sched n len) = Some S' /\ finished G S'.
  Proof.
    intros HA i o p x S sched n HR F.
    apply (fair_finishes G HG HA sched F (work G S) n S); auto. apply (reachable_inv G HG _ _ _ _ _ HR).
  Qed.

  (** A state which is not finished has an operation which makes progress, and
      there can only be finitely many of those. *)
  Lemma progress : acyclic G -> forall i o p x S, reachable G i o p x S -> ~ finished G S ->
    exists ops S', exec G S ops = Some S' /\ work G S' < work G S.
  Proof.
    intros HA i o p x S HR Hf. pose proof (reachable_inv G HG _ _ _ _ _ HR) as J.
    destruct (help_exists G HG HA S J Hf) as (h & Hv & Hc).
    assert (Hm : exists op, matches op h).
    { destruct h as [a b|a b|a|a b|a b|a]; cbn [matches];
        [exists (Deliver a b); auto|exists (Complete a b true); eauto|exists (Run a 0); eauto..]. }
    destruct Hm as (op & Hm).
    assert (HH : forall k S, inv G S -> cond G S h = true -> dist G S h <= k ->
       exists ops S', exec G S ops = Some S' /\ work G S' < work G S).
    { clear S HR Hf J Hc. induction k as [|k IH]; intros S J Hc Hd;
        destruct (step_inv G HG S op J) as (S' & E & J');
        destruct (help_step G HG S op S' h J Hv Hc E) as [H|(H1 & H2 & H3 & H4)].
      - exists [op], S'. cbn. rewrite E. auto.
      - specialize (H4 Hm). lia.
      - exists [op], S'. cbn. rewrite E. auto.
      - specialize (H4 Hm). destruct (IH S' J' H2) as (ops & S'' & E' & Hw); [lia|].
        exists (op :: ops), S''. cbn. rewrite E. split; auto. lia. }
    apply (HH (dist G S h)); auto.
  Qed.
End Leave.

(** ** Round-robin schedules *)
Definition round_robin (l : list op) (n : nat) : op := nth (n mod length l) l (Run 0 0).

Lemma round_robin_fair : forall G l,
  (forall r, r < nranks G -> exists k, In (Run r k) l) ->
  (forall x y, x < nranks G -> y < nranks G -> x <> y -> In (Deliver x y) l /\ exists b, In (Complete x y b) l) ->
  fair G (round_robin l).
Proof.
  intros G l H1 H2 n.
  assert (Hin : forall o, In o l -> exists m, n <= m /\ round_robin l m = o).
  { intros o Ho. apply (In_nth l o (Run 0 0)) in Ho. destruct Ho as (j & Hj & E).
    exists (n * length l + j). split; [nia|]. unfold round_robin.
    rewrite Nat.add_comm, Nat.mod_add, Nat.mod_small by lia. exact E. }
  split.
  - intros r Hr. destruct (H1 r Hr) as (k & Hk). destruct (Hin _ Hk) as (m & Hm & E). exists m, k. auto.
  - intros x y Hx Hy Hxy. destruct (H2 x y Hx Hy Hxy) as [Hd (b & Hb)]. split.
    + destruct (Hin _ Hd) as (m & Hm & E). eauto.
    + destruct (Hin _ Hb) as (m & Hm & E). eauto.
Qed.

Lemma work_monotone : forall G, consistent G -> forall i o p x S a S', reachable G i o p x S -> step G S a = Some S' ->
  work G S' <= work G S.
Proof.
  intros G HG i o p x S a S' HR H. pose proof (reachable_inv G HG _ _ _ _ _ HR) as J.
  destruct (step_progress G HG S a S' J H) as [X|X]; [lia|].
  destruct X as [X _]. rewrite (same_work G S S' X). lia.
Qed.
