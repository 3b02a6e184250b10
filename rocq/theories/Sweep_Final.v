(** The statements of the properties of the sweep, put together from the lemmas. *)
From Coq Require Import List Arith Bool Lia Permutation QArith Qcanon.
From Verif Require Import Sweep_Model Sweep_Spec Sweep_Util Sweep_Local Sweep_Inv Sweep_Count
  Sweep_Steps Sweep_Steps2 Sweep_Steps3 Sweep_Safety Sweep_Value Sweep_Value2 Sweep_Exists Sweep_Live
  Sweep_Live2 Sweep_Levels Sweep_More Sweep_Split Sweep_Leave Sweep_Check Sweep_Examples.
Import ListNotations.
Local Open Scope nat_scope.

Definition with_batch (G : config) (b : nat) : config :=
  mkConfig (nranks G) (cells G) (faces G) (ndirs G) b (source G) (lev G) (halo G) (sweeps G) (resp G) (chemup G).

Lemma with_batch_consistent : forall G b, consistent G -> consistent (with_batch G b).
Proof. intros G b [H1 H2 H3 H4 H5 H6]. constructor; assumption. Qed.

Lemma recursion : forall G, consistent G -> acyclic G -> non_periodic G ->
  forall i o p x, exists I O X,
    I 0 = i /\ O 0 = o /\ X 0 = x /\ solution G p I O X /\
    forall b S, reachable (with_batch G b) i o p x S -> finished (with_batch G b) S ->
      forall c, In c (cells G) ->
        chem (rs S (rank_of c)) c = X (length (sweeps G)) c /\
        forall d, d < ndirs G ->
          inc (rs S (rank_of c)) c d = I (length (sweeps G)) c d /\
          out (rs S (rank_of c)) c d = O (length (sweeps G)) c d /\
          per (rs S (rank_of c)) c d = p c d.
Proof.
  intros G HG HA HN i o p x. destruct (solution_exists G p HA i o x) as (I & O & X & E1 & E2 & E3 & HS).
  exists I, O, X. split; [auto|]. split; [auto|]. split; [auto|]. split; [auto|].
  intros b S HR HF c Hc.
  assert (HS' : solution (with_batch G b) p I O X) by (destruct HS as [A B C]; constructor; assumption).
  apply (finished_values (with_batch G b) (with_batch_consistent G b HG) HN p I O X HS' i o p x S); auto.
  - intros c0 d _ _. rewrite E1, E2. auto.
  - intros c0 _. rewrite E3. auto.
Qed.

Lemma independent : forall G b b' i o p x S S', consistent G -> acyclic G -> non_periodic G ->
  reachable (with_batch G b) i o p x S -> reachable (with_batch G b') i o p x S' ->
  finished (with_batch G b) S -> finished (with_batch G b') S' ->
  forall c, In c (cells G) ->
    chem (rs S (rank_of c)) c = chem (rs S' (rank_of c)) c /\
    forall d, d < ndirs G ->
      inc (rs S (rank_of c)) c d = inc (rs S' (rank_of c)) c d /\
      out (rs S (rank_of c)) c d = out (rs S' (rank_of c)) c d.
Proof.
  intros G b b' i o p x S S' HG HA HN R R' F F' c Hc.
  destruct (recursion G HG HA HN i o p x) as (I & O & X & _ & _ & _ & _ & H).
  destruct (H b S R F c Hc) as [A B]. destruct (H b' S' R' F' c Hc) as [A' B'].
  split; [congruence|]. intros d Hd. destruct (B d Hd) as (B1 & B2 & _). destruct (B' d Hd) as (B1' & B2' & _).
  split; congruence.
Qed.

(** Incoming rates equal the shares of outgoing rates, if they did at the start. *)
Lemma incoming_is_share : forall G i o p x S, consistent G -> acyclic G -> non_periodic G ->
  (forall cur c, In cur (sweeps G) -> In c (cells G) -> cur <= lev G c) ->
  (forall c f, In c (cells G) -> In f (faces G c) -> (0 <= f_area f)%Qc) ->
  (forall c x q, (0 <= resp G c x q)%Qc) ->
  (forall c d, In c (cells G) -> d < ndirs G -> i c d = inflow G o c d) ->
  reachable G i o p x S -> finished G S ->
  forall c d, In c (cells G) -> d < ndirs G ->
    inc (rs S (rank_of c)) c d = inflow G (fun j d => out (rs S (rank_of j)) j d) c d.
Proof.
  intros G i o p x S HG HA HN Hact Hpos Hresp H0 HR HF c d Hc Hd.
  destruct (solution_exists G p HA i o x) as (I & O & X & E1 & E2 & E3 & HS).
  assert (Hv : forall c, In c (cells G) -> forall d, d < ndirs G ->
     inc (rs S (rank_of c)) c d = I (length (sweeps G)) c d /\ out (rs S (rank_of c)) c d = O (length (sweeps G)) c d).
  { intros c0 Hc0 d0 Hd0. destruct (finished_values G HG HN p I O X HS i o p x S) with (c := c0) as [_ B]; auto.
    - intros. rewrite E1, E2. auto.
    - intros. rewrite E3. auto.
    - destruct (B d0 Hd0) as (B1 & B2 & _). auto. }
  rewrite (proj1 (Hv c Hc d Hd)).
  assert (E0 : forall c d, In c (cells G) -> d < ndirs G -> I 0 c d = inflow G (O 0) c d).
  { intros. rewrite E1, E2. auto. }
  rewrite (balance G p I O X HS Hact Hpos Hresp E0 (length (sweeps G)) (le_n _) c d Hc Hd).
  unfold inflow. apply Qcsum_map_ext. intros j Hj. apply Qcsum_map_ext. intros f _.
  rewrite (proj2 (Hv j Hj d Hd)). reflexivity.
Qed.

(** ** Two distributions *)
Lemma row_relabelled : forall b sw, relabelled row_map (row row_levels sw b) (row1 row1_levels sw b).
Proof.
  intros b sw. constructor; cbn [cells row row1 ndirs sweeps source lev resp chemup faces]; auto.
  - cbn. apply perm_trans with [(0, 0); (0, 1); (0, 2)]; repeat constructor.
  - intros p q [<-|[<-|[<-|[]]]] [<-|[<-|[<-|[]]]]; cbn; congruence.
  - intros c [<-|[<-|[<-|[]]]]; cbn; repeat constructor.
  - intros c [<-|[<-|[<-|[]]]]; reflexivity.
Qed.

Lemma row_ok : forall b, consistent (row row_levels [0; 1; 0] b) /\ acyclic (row row_levels [0; 1; 0] b) /\
  non_periodic (row row_levels [0; 1; 0] b).
Proof.
  intros b. split; [apply consistentb_spec; vm_compute; reflexivity|].
  split; [apply (acyclicb_spec _ row_order); vm_compute; reflexivity|apply non_periodicb_spec; vm_compute; reflexivity].
Qed.
Lemma row1_ok : forall b, consistent (row1 row1_levels [0; 1; 0] b) /\ acyclic (row1 row1_levels [0; 1; 0] b) /\
  non_periodic (row1 row1_levels [0; 1; 0] b).
Proof.
  intros b. split; [apply consistentb_spec; vm_compute; reflexivity|].
  split; [apply (acyclicb_spec _ row_order); vm_compute; reflexivity|apply non_periodicb_spec; vm_compute; reflexivity].
Qed.

Lemma Qc_diff : forall a b, Qeq_bool (this a) (this b) = false -> a <> b.
Proof. intros a b H E. rewrite E, (proj2 (Qeq_bool_iff _ _) (Qeq_refl _)) in H. discriminate. Qed.

(** The distributions disagree on the incoming rate of the middle cell even after a last
    sweep in which all cells take part. *)
Lemma distributions_differ : exists f G G' S S' c d,
  consistent G /\ acyclic G /\ non_periodic G /\ consistent G' /\ acyclic G' /\ non_periodic G' /\
  relabelled f G G' /\
  reachable G zero2 zero2 zero2 one1 S /\ finished G S /\
  reachable G' zero2 zero2 zero2 one1 S' /\ finished G' S' /\
  In c (cells G) /\ d < ndirs G /\
  inc (rs S' (rank_of (f c))) (f c) d <> inc (rs S (rank_of c)) c d.
Proof.
  destruct (execution (row row_levels [0; 1; 0] 1) zero2 zero2 zero2 one1 (concat (repeat row_round 80)) _
    (fun S => this (inc (rs S 1) (1, 0) 0)) (1 # 2)) as (S & R & F & V); [vm_compute; reflexivity|].
  destruct (execution (row1 row1_levels [0; 1; 0] 1) zero2 zero2 zero2 one1 (concat (repeat row_round 80)) _
    (fun S => this (inc (rs S 0) (0, 2) 0)) (3 # 4)) as (S' & R' & F' & V'); [vm_compute; reflexivity|].
  destruct (row_ok 1) as (A1 & A2 & A3). destruct (row1_ok 1) as (B1 & B2 & B3).
  exists row_map, (row row_levels [0; 1; 0] 1), (row1 row1_levels [0; 1; 0] 1), S, S', (1, 0), 0.
  repeat (split; [auto; try apply row_relabelled; cbn; auto; fail|]).
  apply Qc_diff. cbn [row_map rank_of fst pid_eqb snd Nat.eqb andb]. rewrite V, V'. reflexivity.
Qed.

(** ** Periodic grids *)
Lemma periodic_differ : exists G S S' c d,
  consistent G /\ acyclic G /\
  reachable G zero2 zero2 zero2 one1 S /\ finished G S /\
  reachable G zero2 zero2 zero2 one1 S' /\ finished G S' /\
  In c (cells G) /\ d < ndirs G /\
  out (rs S (rank_of c)) c d <> out (rs S' (rank_of c)) c d.
Proof.
  destruct (execution fork zero2 zero2 zero2 one1 (fork_schedule 0 2) _
    (fun S => this (out (rs S 1) (1, 0) 0)) (1 # 2)) as (S & R & F & V); [vm_compute; reflexivity|].
  destruct (execution fork zero2 zero2 zero2 one1 (fork_schedule 2 0) _
    (fun S => this (out (rs S 1) (1, 0) 0)) (1 # 4)) as (S' & R' & F' & V'); [vm_compute; reflexivity|].
  exists fork, S, S', (1, 0), 0.
  split; [apply consistentb_spec; vm_compute; reflexivity|].
  split; [apply (acyclicb_spec _ fork_order); vm_compute; reflexivity|].
  repeat (split; [auto; cbn; auto; fail|]).
  apply Qc_diff. cbn [rank_of fst]. rewrite V, V'. reflexivity.
Qed.

(** ** A grid with a cycle *)
Lemma ring_consistent : consistent ring.
Proof. apply consistentb_spec. vm_compute. reflexivity. Qed.

Definition nothing_solved (S : state) : Prop := forall r, r < 2 -> log (rs S r) = [].

Lemma ring_first : forall S, inv ring S -> nothing_solved S -> forall r, r < 2 -> ep (rs S r) = 0.
Proof.
  intros S J H r Hr. pose proof (i_rank _ _ J r Hr) as R. destruct (ep (rs S r)) as [|e] eqn:E; [reflexivity|exfalso].
  pose proof (r_log_done _ _ _ R 0 ((r, 0), 0)) as D. rewrite H, E in D by auto. apply D; [lia|].
  apply in_tasks. cbn. destruct r as [|[|r]]; [auto 10|auto 10|lia].
Qed.

Lemma ring_queue : forall S, inv ring S -> nothing_solved S -> forall r, r < 2 -> queue (rs S r) = [].
Proof.
  intros S J H r Hr. pose proof (i_rank _ _ J r Hr) as R.
  destruct (queue (rs S r)) as [|t q] eqn:E; [reflexivity|exfalso].
  assert (Ht : In t (queue (rs S r))) by (rewrite E; left; auto).
  apply (r_queue _ _ _ R) in Ht. destruct Ht as [Ht Hm]. apply in_unsolved in Ht. destruct Ht as [Ht _].
  apply in_tasks in Ht. destruct Ht as (Hc & Hcr & Ha & Hd). destruct t as [c d]. cbn [fst snd] in *.
  pose proof (i_miss _ _ J c d Hc Hd) as M. rewrite Hcr in M. specialize (M Ha). rewrite Hm in M.
  unfold missing_sum in M. rewrite (ring_first S J H r Hr) in M.
  cbn in Hd. assert (d = 0) by lia. subst d.
  destruct Hc as [<-|[<-|[]]]; cbn in Hcr; subst r.
  - change (others ring 0) with [1] in M. cbn [map list_sum fold_right] in M. rewrite (H 1) in M by lia.
    assert (X : cntm (0, 0) 0 (owed ring k0 [] 1 0 0) = 1) by (vm_compute; reflexivity). lia.
  - change (others ring 1) with [0] in M. cbn [map list_sum fold_right] in M. rewrite (H 0) in M by lia.
    assert (X : cntm (1, 0) 0 (owed ring k0 [] 0 1 0) = 1) by (vm_compute; reflexivity). lia.
Qed.

Lemma start_log : forall G r e s s', start_sweep G r e s = Some s' -> log s' = log s.
Proof.
  intros G r e s s' H. unfold start_sweep in H. destruct (nth_error (sweeps G) e); [|injection H as <-; reflexivity].
  destruct (forallb _ _); [injection H as <-; reflexivity|discriminate].
Qed.

Lemma recv_log : forall G r cur b s s', recv_loop G r cur b s = Some s' -> log s' = log s.
Proof.
  intros G r cur. induction b as [|m b IH]; intros s s' H; cbn in H; [injection H as <-; reflexivity|].
  destruct (if m_periodic m then _ else _) as [s1|] eqn:E; [|discriminate].
  rewrite (IH s1 s' H). destruct (m_periodic m).
  - unfold handle_local_periodic in E. destruct (own G r (m_id m)); [|discriminate]. injection E as <-. reflexivity.
  - unfold handle_local_neighbour in E. destruct (own G r (m_id m)); [|discriminate].
    destruct (cur <=? lev G (m_id m)); [|injection E as <-; reflexivity].
    cbn [miss set_inc] in E. destruct (miss s (m_id m) (m_dir m)); [discriminate|]. injection E as <-.
    destruct (n =? 0); reflexivity.
Qed.

Lemma ring_step : forall S o S', inv ring S -> nothing_solved S -> step ring S o = Some S' -> nothing_solved S'.
Proof.
  intros S o S' J H E.
  assert (Hset : forall r s' n m, log s' = log (rs S r) -> nothing_solved (mkS (upd (rs S) r s') n m)).
  { intros r s' n m El z Hz. cbn [rs]. unfold upd. destruct (Nat.eqb_spec z r) as [->|]; [rewrite El|]; auto. }
  destruct o as [r k|x y|x y eager]; cbn [step] in E.
  - destruct (Nat.ltb_spec r (nranks ring)) as [Hr|]; [|injection E as <-; auto]. cbn in Hr.
    unfold run_rank in E. destruct (pc (rs S r)) as [|[|x l]|n| |] eqn:Hpc.
    + destruct (loop_cond ring r (rs S r)); [injection E as <-; apply Hset; reflexivity|].
      destruct (start_sweep ring r _ _) as [s'|] eqn:Es; [|discriminate]. injection E as <-. apply Hset.
      rewrite (start_log _ _ _ _ _ Es). unfold update_chemistry. destruct (nth_error _ _); reflexivity.
    + injection E as <-; apply Hset; reflexivity.
    + destruct (0 <? torecv (rs S r) x); [|injection E as <-; apply Hset; reflexivity].
      destruct (mail S x r) as [|b rest]; [injection E as <-; apply Hset; reflexivity|].
      destruct (nth_error (sweeps ring) (ep (rs S r))) as [cur|]; [|injection E as <-; apply Hset; reflexivity].
      destruct (receive_batch ring r cur x b (rs S r)) as [s'|] eqn:Er; [|discriminate]. injection E as <-.
      apply Hset. unfold receive_batch in Er. destruct (length b <=? torecv (rs S r) x); [|discriminate].
      cbn [log set_pc]. rewrite (recv_log _ _ _ _ _ _ Er). reflexivity.
    + rewrite (ring_queue S J H r Hr) in E. injection E as <-. apply Hset. reflexivity.
    + injection E as <-; apply Hset; reflexivity.
    + injection E as <-; auto.
  - destruct (net S x y); injection E as <-; auto.
  - destruct (req (rs S x) y); try (injection E as <-; auto; fail).
    destruct (eager || _); injection E as <-; auto. apply Hset. reflexivity.
Qed.

Lemma ring_blocks : forall i o p x ops, exists S0 S, init ring i o p x = Some S0 /\ exec ring S0 ops = Some S /\ ~ finished ring S.
Proof.
  intros i o p x ops. pose proof ring_consistent as HG.
  destruct (init_state ring HG i o p x) as (S0 & E0 & Hs & _).
  assert (N0 : nothing_solved S0). { intros r Hr. rewrite (start_log _ _ _ _ _ (Hs r Hr)). reflexivity. }
  pose proof (init_inv ring HG _ _ _ _ _ E0) as J0. exists S0.
  assert (X : forall ops S0, inv ring S0 -> nothing_solved S0 -> exists S, exec ring S0 ops = Some S /\ inv ring S /\ nothing_solved S).
  { clear. intros ops. pose proof ring_consistent as HG. induction ops as [|a ops IH]; intros S0 J N; [exists S0; auto|].
    destruct (step_inv ring HG S0 a J) as (S1 & E1 & J1). cbn [exec]. rewrite E1. apply IH; auto.
    apply (ring_step S0 a); auto. }
  destruct (X ops S0 J0 N0) as (S & E & J & N). exists S. split; [auto|]. split; [auto|]. intros F.
  assert (Hr : 0 < nranks ring) by (cbn; lia). specialize (F 0 Hr).
  destruct (r_ep _ _ _ (i_rank _ _ J 0 Hr)) as [[_ X1]|[X1 _]]; [|auto].
  rewrite (ring_first S J N 0) in X1 by lia. discriminate.
Qed.
