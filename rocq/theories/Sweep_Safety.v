(** The invariant holds in all executions; consequences. *)
From Coq Require Import List Arith Bool Lia Permutation QArith Qcanon.
From Verif Require Import Sweep_Model Sweep_Spec Sweep_Util Sweep_Local Sweep_Inv Sweep_Count
  Sweep_Steps Sweep_Steps2 Sweep_Steps3.
Import ListNotations.
Local Open Scope nat_scope.

Section Safety.
  Variable G : config.
  Hypothesis HG : consistent G.

  Notation inv := (inv G).
  Notation tasks := (tasks G).
  Notation unsolved := (unsolved G).

  Lemma unsolved_empty_log : forall r e, unsolved [] r e = tasks r e.
  Proof.
    intros. unfold Sweep_Inv.unsolved. induction (tasks r e) as [|t l IH]; [reflexivity|].
    cbn. f_equal. exact IH.
  Qed.

  Lemma init_state : forall i o p x, exists S0, init G i o p x = Some S0 /\
    (forall r, r < nranks G -> start_sweep G r 0 (blank i o p x) = Some (rs S0 r)) /\
    net S0 = (fun _ _ => []) /\ mail S0 = (fun _ _ => []).
  Proof.
    intros i o p x. unfold init.
    assert (H : forall r, exists s', start_sweep G r 0 (blank i o p x) = Some s').
    { intros r. destruct (start_sweep_spec G HG r 0 (blank i o p x)) as (s' & E & _). eauto. }
    rewrite (proj2 (forallb_forall _ _)).
    - eexists; split; [reflexivity|]. split; [|split; reflexivity].
      intros r _. cbn [rs]. destruct (H r) as (s' & E). rewrite E. reflexivity.
    - intros r _. destruct (H r) as (s' & E). rewrite E. reflexivity.
  Qed.

  Lemma init_inv : forall i o p x S0, init G i o p x = Some S0 -> inv S0.
  Proof.
    intros i o p x S0 H. destruct (init_state i o p x) as (S1 & E & Hs & Hn & Hm).
    rewrite H in E. injection E as <-.
    assert (St : forall r, r < nranks G -> started G r 0 (blank i o p x) (rs S0 r)).
    { intros r Hr. destruct (start_sweep_spec G HG r 0 (blank i o p x)) as (s' & E & St).
      rewrite (Hs r Hr) in E. injection E as ->. exact St. }
    assert (Hst : forall a b, stream S0 a b = []) by (intros; unfold stream; rewrite Hn, Hm; reflexivity).
    assert (Hlog : forall r, r < nranks G -> log (rs S0 r) = []).
    { intros r Hr. rewrite (st_log _ _ _ _ _ (St r Hr)). reflexivity. }
    assert (Hep : forall r, r < nranks G -> ep (rs S0 r) = 0).
    { intros r Hr. rewrite (st_ep _ _ _ _ _ (St r Hr)). reflexivity. }
    assert (Hts : forall r, r < nranks G -> tosend (rs S0 r) = fun _ => []).
    { intros r Hr. rewrite (st_tosend _ _ _ _ _ (St r Hr)). reflexivity. }
    constructor.
    - intros r Hr. specialize (St r Hr).
      constructor; rewrite ?(Hlog r Hr), ?(Hep r Hr), ?unsolved_empty_log.
      + destruct (st_pc _ _ _ _ _ St) as [[X1 X2]|[X1 X2]]; [left; split; [auto|lia]|right; split; [congruence|auto]].
      + constructor.
      + intros e t [].
      + intros e t Hlt. lia.
      + destruct (Nat.lt_ge_cases 0 (length (sweeps G))) as [X|X].
        * apply (st_queue _ _ _ _ _ St X).
        * rewrite (st_queue' _ _ _ _ _ St X). constructor.
      + intros t. destruct (Nat.lt_ge_cases 0 (length (sweeps G))) as [X|X].
        * apply (st_queue _ _ _ _ _ St X).
        * rewrite (st_queue' _ _ _ _ _ St X), (tasks_beyond G r _ X). cbn. tauto.
      + intros t [].
      + intros d Hd. destruct (Nat.lt_ge_cases 0 (length (sweeps G))) as [X|X].
        * apply (st_cnt _ _ _ _ _ St d X Hd).
        * rewrite (st_cnt' _ _ _ _ _ St X), (tasks_beyond G r _ X). reflexivity.
      + intros y _. rewrite (st_req _ _ _ _ _ St), (st_buf _ _ _ _ _ St). cbn. tauto.
      + intros y _ _ _. rewrite (Hts r Hr). reflexivity.
      + intros l X. destruct (st_pc _ _ _ _ _ St) as [[X1 _]|[X1 _]]; congruence.
    - intros a b Ha Hb Hab. rewrite Hst, (Hlog a Ha), (Hep a Ha), (Hep b Hb), (Hts a Ha).
      constructor; cbn [concat app].
      + unfold owed. rewrite unsolved_empty_log. cbn [ofep filter length]. rewrite Nat.add_0_r.
        destruct (Nat.lt_ge_cases 0 (length (sweeps G))) as [X|X].
        * rewrite (st_torecv _ _ _ _ _ (St b Hb) a); auto. apply in_others; auto.
        * rewrite (st_torecv' _ _ _ _ _ (St b Hb) X), (tasks_beyond G a _ X). reflexivity.
      + intros e Hlt. lia.
      + intros e _. cbn [ofep filter map]. rewrite app_nil_r. unfold owed, expected.
        rewrite unsolved_empty_log. reflexivity.
      + intros m [].
      + intros m [].
      + exact Logic.I.
      + intros m [].
      + intros m [].
    - intros c d Hc Hd. pose proof (c_rank _ HG c Hc) as Hr. rewrite (Hep _ Hr). intros Ha.
      rewrite (st_miss _ _ _ _ _ (St _ Hr) c d) by (auto; apply in_own_cells; auto).
      unfold missing_sum. rewrite (Hlog _ Hr). unfold owedL. rewrite unsolved_empty_log. f_equal.
      apply list_sum_map_ext. intros y Hy. apply in_others in Hy. destruct Hy as [Hy _].
      unfold flight. rewrite Hst, (Hts y Hy), (Hlog y Hy). unfold owed. rewrite unsolved_empty_log.
      cbn. rewrite Nat.add_0_r. reflexivity.
    - intros e c d q f Hin Hc. rewrite (Hlog _ (c_rank _ HG c Hc)) in Hin. destruct Hin.
  Qed.

  Lemma step_inv : forall S o, inv S -> exists S', step G S o = Some S' /\ inv S'.
  Proof.
    intros S o I. destruct o as [r k|x y|x y eager]; cbn [step].
    - destruct (Nat.ltb_spec r (nranks G)) as [Hr|]; [|exists S; auto].
      pose proof (i_rank _ _ I r Hr) as R. unfold run_rank.
      assert (Hepc : pc (rs S r) <> PFinished -> exists cur, nth_error (sweeps G) (ep (rs S r)) = Some cur).
      { intros X. destruct (r_ep _ _ _ R) as [[Y _]|[_ Y]]; [contradiction|].
        destruct (nth_error (sweeps G) (ep (rs S r))) eqn:E; [eauto|]. apply nth_error_None in E. lia. }
      destruct (pc (rs S r)) as [|[|x l]|n| |] eqn:Hpc.
      + destruct (loop_cond G r (rs S r)) eqn:Hlc.
        * eexists; split; [reflexivity|]. apply inv_set_pc; auto; try congruence;
            destruct (queue (rs S r)); try discriminate; intros l X; try discriminate.
          injection X as <-. apply incl_refl.
        * destruct (inv_next G HG S r I Hr Hpc Hlc) as (s' & E & _ & I').
          rewrite E. cbn. eexists; split; [reflexivity|exact I'].
      + eexists; split; [reflexivity|]. apply inv_set_pc; auto; congruence.
      + assert (Hskip : inv (set_rs S r (set_pc (rs S r) (PRecv l)))).
        { apply inv_set_pc; auto; try congruence. intros l' X. injection X as <-. intros z Hz.
          apply (r_recv _ _ _ R (x :: l) Hpc). right; auto. }
        destruct (Nat.ltb_spec 0 (torecv (rs S r) x)) as [Htr|]; [|eexists; split; [reflexivity|auto]].
        destruct Hepc as (cur & He); [congruence|].
        destruct (mail S x r) as [|b rest] eqn:Hmail; [eexists; split; [reflexivity|auto]|].
        rewrite He.
        destruct (inv_receive G S r x l b rest cur I Hr Hpc Htr Hmail He) as (s' & E & _ & _ & _ & I').
        rewrite E. eexists; split; [reflexivity|exact I'].
      + destruct (queue (rs S r)) as [|t0 q0] eqn:Hq.
        * eexists; split; [reflexivity|]. apply inv_set_pc; auto; congruence.
        * set (q := t0 :: q0) in *.
          destruct Hepc as (cur & He); [congruence|].
          destruct (nth_error q (k mod length q)) as [[c d]|] eqn:Hnth.
          2:{ exfalso. apply nth_error_None in Hnth.
              pose proof (Nat.mod_upper_bound k (length q)). assert (length q <> 0) by discriminate. lia. }
          rewrite He. rewrite <- Hq in Hnth.
          destruct (inv_solve G HG S r n _ (c, d) cur I Hr Hpc Hnth He) as (s' & E & _ & I').
          cbn [fst snd] in E. rewrite Hq in E. rewrite E. eexists; split; [reflexivity|].
          apply I'. destruct (batch G <? Datatypes.S n); eauto.
      + eexists; split; [reflexivity|]. apply inv_send; auto.
      + exists S; auto.
    - destruct (net S x y) as [|b rest] eqn:Hn; [exists S; auto|].
      eexists; split; [reflexivity|]. apply inv_deliver; auto.
    - destruct (req (rs S x) y) eqn:Hq; try (exists S; auto; fail).
      destruct (eager || _); [|exists S; auto].
      eexists; split; [reflexivity|]. apply inv_complete; auto.
  Qed.

  Lemma exec_inv : forall ops S, inv S -> exists S', exec G S ops = Some S' /\ inv S'.
  Proof.
    induction ops as [|o ops IH]; intros S I; cbn [exec].
    - exists S; auto.
    - destruct (step_inv S o I) as (S' & E & I'). rewrite E. auto.
  Qed.

  Definition reachable (i o p : pid -> nat -> Qc) (x : pid -> list Qc) (S : state) : Prop :=
    exists S0 ops, init G i o p x = Some S0 /\ exec G S0 ops = Some S.

  Lemma reachable_inv : forall i o p x S, reachable i o p x S -> inv S.
  Proof.
    intros i o p x S (S0 & ops & H0 & H). pose proof (init_inv _ _ _ _ _ H0) as I0.
    destruct (exec_inv ops S0 I0) as (S' & E & I'). rewrite H in E. injection E as ->. exact I'.
  Qed.

  (** No schedule makes any rank panic. *)
  Lemma never_panics : forall i o p x ops, exists S0 S,
    init G i o p x = Some S0 /\ exec G S0 ops = Some S.
  Proof.
    intros i o p x ops. destruct (init_state i o p x) as (S0 & E & _).
    destruct (exec_inv ops S0 (init_inv _ _ _ _ _ E)) as (S & E' & _). eauto.
  Qed.

  Lemma act_active : forall e c, act G e c = true <-> active_in G e c.
  Proof.
    intros. unfold act, active_in. destruct (nth_error (sweeps G) e) as [cur|].
    - rewrite Nat.leb_le. split; [intros; exists cur; auto|]. intros (cur' & E & H). congruence.
    - split; [discriminate|]. intros (cur' & E & _). discriminate.
  Qed.

  (** When all ranks are finished, each rank has solved each of its active cells
      in each direction exactly once per sweep, and nothing else. *)
  Lemma finished_solved : forall S e c d, inv S -> finished G S ->
    In c (cells G) ->
    (In (e, c, d) (log (rs S (rank_of c))) <-> active_in G e c /\ d < ndirs G).
  Proof.
    intros S e c d I F Hc. pose proof (c_rank _ HG c Hc) as Hr.
    pose proof (i_rank _ _ I _ Hr) as R. specialize (F _ Hr). split.
    - intros H. pose proof (r_log_in _ _ _ R e (c, d) H) as [Ht _].
      apply in_tasks in Ht. cbn in Ht. rewrite <- act_active. tauto.
    - intros [Ha Hd]. apply (r_log_done _ _ _ R e (c, d)).
      + destruct (r_ep _ _ _ R) as [[_ X]|[X _]]; [|contradiction]. rewrite X.
        destruct Ha as (cur & E & _). apply nth_error_Some. congruence.
      + apply in_tasks. cbn. rewrite act_active. auto.
  Qed.

  Lemma finished_no_messages : forall S x y, inv S -> finished G S ->
    x < nranks G -> y < nranks G -> x <> y -> flight S x y = [].
  Proof.
    intros S x y I F Hx Hy Hxy. pose proof (i_pair _ _ I x y Hx Hy Hxy) as P.
    destruct (flight S x y) as [|m l] eqn:E; [reflexivity|exfalso]. unfold flight in E.
    assert (Hm : In m (concat (stream S x y) ++ tosend (rs S x) y)) by (rewrite E; left; auto).
    pose proof (p_dest _ _ _ _ _ _ _ _ _ P m Hm) as (_ & _ & _ & Ha).
    pose proof (p_tags _ _ _ _ _ _ _ _ _ P m Hm) as [Ht _].
    destruct (r_ep _ _ _ (i_rank _ _ I y Hy)) as [[_ X]|[X _]]; [|apply X, (F y Hy)].
    rewrite X in Ht. unfold act in Ha. rewrite (proj2 (nth_error_None _ _) Ht) in Ha. discriminate.
  Qed.
End Safety.
