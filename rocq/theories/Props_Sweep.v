(** Properties C09-C15 and C45: the distributed sweep. *)
From Coq Require Import List Arith Bool Lia Permutation QArith Qcanon.
From Verif Require Import Sweep_Model Sweep_Spec Sweep_Util Sweep_Safety Sweep_Live Sweep_Live2 Sweep_Levels Sweep_More
  Sweep_Split Sweep_Leave Sweep_Check Sweep_Examples Sweep_Final.
Import ListNotations.
Local Open Scope nat_scope.

(** C09. Whatever the schedule, no rank panics (in particular no counter goes below
    zero). *)
Theorem C09_never_panics :
  forall G, consistent G ->
  forall i o p x ops, exists S0 S, init G i o p x = Some S0 /\ exec G S0 ops = Some S.
Proof. exact never_panics. Qed.
Print Assumptions C09_never_panics.

(** When all ranks are finished, the list of tasks solved by a rank contains every pair of
    an active cell of the rank and a direction exactly once per sweep, and nothing
    else. *)
Theorem C09_every_task_solved_once :
  forall G, consistent G ->
  forall i o p x S, reachable G i o p x S -> finished G S ->
  forall r, r < nranks G ->
    NoDup (log (rs S r)) /\
    forall e c d, In (e, c, d) (log (rs S r)) <->
      In c (cells G) /\ rank_of c = r /\ active_in G e c /\ d < ndirs G.
Proof. exact solved_once. Qed.
Print Assumptions C09_every_task_solved_once.

(** At any time: a cell is only solved after the active cells upwind of it. *)
Theorem C09_upwind_cells_first :
  forall G, consistent G ->
  forall i o p x S, reachable G i o p x S ->
  forall e c d q f, In c (cells G) -> In (e, c, d) (log (rs S (rank_of c))) -> In f (faces G c) ->
    upwind f d = true -> (f_nb f = Local q \/ f_nb f = Remote q) -> active_in G e q ->
    In (e, q, d) (log (rs S (rank_of q))).
Proof. exact upwind_before. Qed.
Print Assumptions C09_upwind_cells_first.

(** When the loop of a rank ends, it has no task, nothing to send, no message of the
    sweep is on its way to it, its active cells are solved, and no cell waits for
    anything. *)
Theorem C09_nothing_left_behind :
  forall G, consistent G ->
  forall i o p x S r, reachable G i o p x S -> r < nranks G -> pc (rs S r) = PHead ->
  loop_cond G r (rs S r) = false ->
    queue (rs S r) = [] /\
    (forall y, y < nranks G -> y <> r -> tosend (rs S r) y = [] /\ buf (rs S r) y = []) /\
    (forall y m, y < nranks G -> y <> r ->
       In m (concat (mail S y r) ++ concat (net S y r) ++ tosend (rs S y) r) -> m_ep m <> ep (rs S r)) /\
    (forall c d, In c (cells G) -> rank_of c = r -> active_in G (ep (rs S r)) c -> d < ndirs G ->
       In (ep (rs S r), c, d) (log (rs S r))) /\
    (forall c d, In c (cells G) -> rank_of c = r -> d < ndirs G -> miss (rs S r) c d = 0).
Proof. exact leaving. Qed.
Print Assumptions C09_nothing_left_behind.

(** Three cells on two ranks, two directions, two sweeps in the second of which the
    middle cell is inactive; all ranks finish, with the middle cell solved twice. *)
Example C09_example :
  consistent (row row_levels [0; 1] 1) /\
  option_map (fun S => (finishedb (row row_levels [0; 1] 1) S, length (log (rs S 0)), log (rs S 1)))
    (from_start (row row_levels [0; 1] 1) zero2 zero2 zero2 one1 (concat (repeat row_round 40)))
  = Some (true, 8, [(0, (1, 0), 0); (0, (1, 0), 1)]).
Proof. split; [apply consistentb_spec|]; vm_compute; reflexivity. Qed.

(** C10. From every reachable state every fair schedule leads to a state in which all
    ranks have finished all sweeps. A schedule is fair if every rank runs, and for each
    pair of ranks delivery and completion of sends are attempted, infinitely often. The
    attempted completions may all be of the kind which only succeeds after the receiver has
    taken the message ([Complete x y false]). *)
Theorem C10_fair_schedules_finish :
  forall G, consistent G -> acyclic G ->
  forall i o p x S sched n, reachable G i o p x S -> fair G sched ->
    exists len S', exec G S (map sched (seq n len)) = Some S' /\ finished G S'.
Proof. exact fair_terminates. Qed.
Print Assumptions C10_fair_schedules_finish.

(** Unless all ranks have finished, some operations reduce [work], a natural number. *)
Theorem C10_progress_is_possible :
  forall G, consistent G -> acyclic G ->
  forall i o p x S, reachable G i o p x S -> ~ finished G S ->
    exists ops S', exec G S ops = Some S' /\ work G S' < work G S.
Proof. exact progress. Qed.
Print Assumptions C10_progress_is_possible.

(** An operation which does not reduce the amount of work changes nothing but the
    position of one rank in its loop. *)
Theorem C10_work_never_increases :
  forall G, consistent G -> forall i o p x S a S', reachable G i o p x S -> step G S a = Some S' ->
    work G S' <= work G S.
Proof. exact work_monotone. Qed.
Print Assumptions C10_work_never_increases.

Example C10_example :
  consistent (row row_levels [0; 1] 1) /\ acyclic (row row_levels [0; 1] 1) /\
  fair (row row_levels [0; 1] 1) (round_robin row_round).
Proof.
  split; [apply consistentb_spec; vm_compute; reflexivity|].
  split; [apply (acyclicb_spec _ row_order); vm_compute; reflexivity|].
  apply round_robin_fair.
  - intros [|[|r]] H; cbn in H; [exists 0; cbn; auto|exists 0; cbn; auto|lia].
  - intros [|[|x]] [|[|y]] H1 H2 H3; cbn in H1, H2; try lia; (split; [cbn; auto|exists false; cbn; auto 10]).
Qed.

(** The assumption is necessary: with a cycle no schedule finishes. *)
Theorem C10_cycle_blocks :
  forall i o p x ops, exists S0 S, init ring i o p x = Some S0 /\ exec ring S0 ops = Some S /\ ~ finished ring S.
Proof. exact ring_blocks. Qed.
Print Assumptions C10_cycle_blocks.

(** C11. A rank only takes batches which consist of messages of its current sweep, for
    cells which are its own and active. *)
Theorem C11_takes_messages_of_current_sweep :
  forall G, consistent G ->
  forall i o p x S S' y k a, reachable G i o p x S ->
  step G S (Run y k) = Some S' -> a < nranks G -> y < nranks G -> a <> y -> mail S' a y <> mail S a y ->
    exists b, mail S a y = b :: mail S' a y /\ b <> [] /\
      forall m, In m b -> m_ep m = ep (rs S y) /\ active_in G (ep (rs S y)) (m_id m) /\ rank_of (m_id m) = y.
Proof. exact takes_current. Qed.
Print Assumptions C11_takes_messages_of_current_sweep.

Theorem C11_batches_belong_to_one_sweep :
  forall G, consistent G ->
  forall i o p x S a y b, reachable G i o p x S -> a < nranks G -> y < nranks G -> a <> y ->
  In b (mail S a y ++ net S a y) ->
    b <> [] /\ exists e, ep (rs S y) <= e <= ep (rs S a) /\ forall m, In m b -> m_ep m = e.
Proof. exact single_sweep_batches. Qed.
Print Assumptions C11_batches_belong_to_one_sweep.

(** A rank can really be ahead: rank 0 sends the message of the second sweep while rank 1
    has not yet taken that of the first. *)
Example C11_example :
  option_map (fun S => (ep (rs S 0), ep (rs S 1), map (map m_ep) (net S 0 1 ++ mail S 0 1)))
    (from_start oneway zero2 zero2 zero2 one1
       (runs 0 5 ++ [Complete 0 1 true] ++ runs 0 20 ++ [Complete 0 1 true; Deliver 0 1]))
  = Some (1, 0, [[1]; [0]]) /\ consistent oneway.
Proof. split; [vm_compute; reflexivity|apply consistentb_spec; vm_compute; reflexivity]. Qed.

(** C12. On grids without periodic connections the final rates and chemical states are
    those of the upwind recursion [solution] (Sweep_Spec.v), for every schedule and every
    batch size. *)
Theorem C12_results_follow_recursion :
  forall G, consistent G -> acyclic G -> non_periodic G ->
  forall i o p x, exists I O X,
    I 0 = i /\ O 0 = o /\ X 0 = x /\ solution G p I O X /\
    forall b S, reachable (with_batch G b) i o p x S -> finished (with_batch G b) S ->
      forall c, In c (cells G) ->
        chem (rs S (rank_of c)) c = X (length (sweeps G)) c /\
        forall d, d < ndirs G ->
          inc (rs S (rank_of c)) c d = I (length (sweeps G)) c d /\
          out (rs S (rank_of c)) c d = O (length (sweeps G)) c d /\
          per (rs S (rank_of c)) c d = p c d.
Proof. exact recursion. Qed.
Print Assumptions C12_results_follow_recursion.

Theorem C12_schedule_independent :
  forall G b b' i o p x S S', consistent G -> acyclic G -> non_periodic G ->
  reachable (with_batch G b) i o p x S -> reachable (with_batch G b') i o p x S' ->
  finished (with_batch G b) S -> finished (with_batch G b') S' ->
  forall c, In c (cells G) ->
    chem (rs S (rank_of c)) c = chem (rs S' (rank_of c)) c /\
    forall d, d < ndirs G ->
      inc (rs S (rank_of c)) c d = inc (rs S' (rank_of c)) c d /\
      out (rs S (rank_of c)) c d = out (rs S' (rank_of c)) c d.
Proof. exact independent. Qed.
Print Assumptions C12_schedule_independent.

Example C12_example :
  let view S := map (fun c => map (fun d => (this (inc (rs S (rank_of c)) c d), this (out (rs S (rank_of c)) c d))) [0; 1])
                  [(0, 0); (1, 0); (0, 1)] in
  let result b ops := option_map (fun S => (finishedb (row row_levels [0; 1] b) S, view S))
    (from_start (row row_levels [0; 1] b) zero2 zero2 zero2 one1 ops) in
  non_periodic (row row_levels [0; 1] 1) /\
  result 1 (concat (repeat row_round 40)) = result 7 (concat (repeat (rev row_round ++ [Run 0 1]) 40)) /\
  result 1 (concat (repeat row_round 40)) =
    Some (true, [[(0, 1 # 2); (3 # 8, 7 # 8)]; [(1 # 4, 3 # 8); (1 # 4, 3 # 8)]; [(3 # 8, 7 # 8); (0, 1 # 2)]]%Q).
Proof. split; [apply non_periodicb_spec; vm_compute; reflexivity|split; vm_compute; reflexivity]. Qed.

(** C13. Effect of solving a task, in any state of a rank: the change [corr] of the
    outgoing rate is handed on face by face in proportion to area times cosine. *)
Theorem C13_change_is_handed_on :
  forall G r cur c d s s', solve_task G r cur c d s = Some s' ->
  let corr := (out s' c d - out s c d)%Qc in
  (forall p d', (p, d') <> (c, d) -> out s' p d' = out s p d') /\
  (forall p d', inc s' p d' =
     (base s c d p d' + over (fun f => downwind f d && is_local p f && (d' =? d)) (fun f => corr * share G c f d) (faces G c))%Qc) /\
  (forall p d', per s' p d' =
     (per s p d' + over (fun f => downwind f d && is_local_periodic p f && (d' =? d)) (fun f => corr * share G c f d) (faces G c))%Qc) /\
  (forall y, tosend s' y = tosend s y ++
     flat_map (fun f => if downwind f d then face_msg G r cur (ep s) d (corr * share G c f d)%Qc y f else []) (faces G c)) /\
  (forall f, In f (faces G c) -> face_ok G r cur d f) /\ own G r c = true.
Proof. exact solve_task_effect. Qed.
Print Assumptions C13_change_is_handed_on.

(** Nothing is lost: what the rank's own cells get, what is queued for sending, what
    leaves through boundaries, and what would have gone to cells of other ranks which do
    not take part in the sweep, add up to the change. *)
Theorem C13_nothing_is_lost :
  forall G r cur c d s s', NoDup (cells G) -> solve_task G r cur c d s = Some s' ->
  (forall f, In f (faces G c) -> (0 < f_area f)%Qc) ->
  (exists f, In f (faces G c) /\ downwind f d = true) ->
  let corr := (out s' c d - out s c d)%Qc in
  (Qcsum (map (fun p => (inc s' p d - base s c d p d) + (per s' p d - per s p d))%Qc (own_cells G r)) +
   Qcsum (map (fun y => Qcsum (map m_rate (skipn (length (tosend s y)) (tosend s' y)))) (others G r)) +
   over (fun f => downwind f d && is_boundary f) (fun f => corr * share G c f d)%Qc (faces G c) +
   over (fun f => downwind f d && is_skipped G r cur f) (fun f => corr * share G c f d)%Qc (faces G c))%Qc = corr.
Proof. exact ledger. Qed.
Print Assumptions C13_nothing_is_lost.

(** If all cells take part in all sweeps, the incoming rate of every cell is in the end
    the sum of its upwind neighbours' shares of their outgoing rates. *)
Theorem C13_incoming_is_sum_of_shares :
  forall G i o p x S, consistent G -> acyclic G -> non_periodic G ->
  (forall cur c, In cur (sweeps G) -> In c (cells G) -> cur <= lev G c) ->
  (forall c f, In c (cells G) -> In f (faces G c) -> (0 <= f_area f)%Qc) ->
  (forall c x q, (0 <= resp G c x q)%Qc) ->
  (forall c d, In c (cells G) -> d < ndirs G -> i c d = inflow G o c d) ->
  reachable G i o p x S -> finished G S ->
  forall c d, In c (cells G) -> d < ndirs G ->
    inc (rs S (rank_of c)) c d = inflow G (fun j d => out (rs S (rank_of j)) j d) c d.
Proof. exact incoming_is_share. Qed.
Print Assumptions C13_incoming_is_sum_of_shares.

(** A cell with two downwind faces of areas 1 and 3, one towards a boundary and one towards
    a cell of the same rank. *)
Example C13_example :
  option_map (fun s' => (this (out s' (0, 0) 0), this (inc s' (0, 1) 0)))
    (match init split zero2 zero2 zero2 one1 with Some T => solve_task split 0 0 (0, 0) 0 (rs T 0) | None => None end)
  = Some (1 # 2, 3 # 8).
Proof. vm_compute. reflexivity. Qed.
(** The hypotheses of the last theorem hold for the row with all cells on one level
    and a non-negative response; the state starts from zero rates. *)
Example C13_hypotheses_example :
  let G := row (fun _ => 0) [0; 0] 1 in
  consistent G /\ acyclic G /\ non_periodic G /\
  (forall cur c, In cur (sweeps G) -> In c (cells G) -> cur <= lev G c) /\
  (forall c f, In c (cells G) -> In f (faces G c) -> (0 <= f_area f)%Qc) /\
  (forall c d, In c (cells G) -> d < ndirs G -> zero2 c d = inflow G zero2 c d).
Proof.
  split; [apply consistentb_spec; vm_compute; reflexivity|].
  split; [apply (acyclicb_spec _ row_order); vm_compute; reflexivity|].
  split; [apply non_periodicb_spec; vm_compute; reflexivity|].
  split; [|split].
  - intros cur c [<-|[<-|[]]] _; cbn; lia.
  - intros c f [<-|[<-|[<-|[]]]] Hf; cbn in Hf; repeat (destruct Hf as [<-|Hf]; [vm_compute; discriminate|]); destruct Hf.
  - intros c d Hc Hd. unfold inflow, zero2. symmetry. apply Sweep_Value.Qcsum_map_zero. intros j _.
    apply Sweep_Value.Qcsum_map_zero. intros f _. rewrite Qcmult_0_l. destruct (_ && _); reflexivity.
Qed.

(** C14 is false of the code: the distribution over ranks changes the results. A cell
    which does not take part in a sweep receives corrections from cells of its own rank but
    not from those of other ranks, and these are never made up for. The example performs
    sweeps at levels 0, 1 and 0. *)
Theorem C14_distribution_independence_refuted :
  exists f G G' S S' c d,
  consistent G /\ acyclic G /\ non_periodic G /\ consistent G' /\ acyclic G' /\ non_periodic G' /\
  relabelled f G G' /\
  reachable G zero2 zero2 zero2 one1 S /\ finished G S /\
  reachable G' zero2 zero2 zero2 one1 S' /\ finished G' S' /\
  In c (cells G) /\ d < ndirs G /\
  inc (rs S' (rank_of (f c))) (f c) d <> inc (rs S (rank_of c)) c d.
Proof. exact distributions_differ. Qed.
Print Assumptions C14_distribution_independence_refuted.

(** It holds if in both distributions whenever a cell takes part, so do the downwind
    neighbours which are on another rank; for instance if all cells have the same
    level. *)
Theorem C14_distribution_independence_partial :
  forall f G G', consistent G -> consistent G' -> relabelled f G G' -> no_dropped G -> no_dropped G' ->
  non_periodic G -> non_periodic G' -> acyclic G' ->
  forall i o p x i' o' p' x' S S',
  (forall c d, In c (cells G) -> d < ndirs G -> i' (f c) d = i c d /\ o' (f c) d = o c d /\ p' (f c) d = p c d) ->
  (forall c, In c (cells G) -> x' (f c) = x c) ->
  reachable G i o p x S -> finished G S -> reachable G' i' o' p' x' S' -> finished G' S' ->
  forall c, In c (cells G) ->
    chem (rs S' (rank_of (f c))) (f c) = chem (rs S (rank_of c)) c /\
    forall d, d < ndirs G ->
      inc (rs S' (rank_of (f c))) (f c) d = inc (rs S (rank_of c)) c d /\
      out (rs S' (rank_of (f c))) (f c) d = out (rs S (rank_of c)) c d.
Proof. exact distribution_independent. Qed.
Print Assumptions C14_distribution_independence_partial.

Example C14_example :
  let G := row (fun _ => 0) [0; 0] 1 in let G' := row1 (fun _ => 0) [0; 0] 1 in
  relabelled row_map G G' /\ no_dropped G /\ no_dropped G' /\ consistent G' /\ acyclic G'.
Proof.
  split; [|split; [|split; [|split]]].
  - constructor; cbn [cells row row1 ndirs sweeps source lev resp chemup faces]; auto.
    + cbn. apply perm_trans with [(0, 0); (0, 1); (0, 2)]; repeat constructor.
    + intros p q [<-|[<-|[<-|[]]]] [<-|[<-|[<-|[]]]]; cbn; congruence.
    + intros c [<-|[<-|[<-|[]]]]; cbn; repeat constructor.
  - intros cur j fc p d [<-|[<-|[]]] _ _ _ _ _; cbn; lia.
  - intros cur j fc p d [<-|[<-|[]]] _ _ _ _ _; cbn; lia.
  - apply consistentb_spec. vm_compute. reflexivity.
  - apply (acyclicb_spec _ row_order). vm_compute. reflexivity.
Qed.

(** C15 is false of the code: with periodic connections the order in which messages
    arrive decides the outgoing rates. *)
Theorem C15_periodic_schedule_independence_refuted :
  exists G S S' c d,
  consistent G /\ acyclic G /\
  reachable G zero2 zero2 zero2 one1 S /\ finished G S /\
  reachable G zero2 zero2 zero2 one1 S' /\ finished G S' /\
  In c (cells G) /\ d < ndirs G /\
  out (rs S (rank_of c)) c d <> out (rs S' (rank_of c)) c d.
Proof. exact periodic_differ. Qed.
Print Assumptions C15_periodic_schedule_independence_refuted.

(** C45. At the start of a sweep the counter for another rank equals the number of
    pairs of a direction and a face of an active cell of that rank through which
    something flows to an active cell of this rank; these are exactly the faces for which
    that rank will send a message (C13_change_is_handed_on). *)
Theorem C45_counts_agree :
  forall G, consistent G ->
  forall r x e cur, nth_error (sweeps G) e = Some cur -> x <> r ->
    torecv_init G r cur x = crossing G x r cur.
Proof. exact counts_agree. Qed.
Print Assumptions C45_counts_agree.

(** After an exchange of levels, each rank knows the levels of all cells of other
    ranks which are next to its own, whatever it believed before. *)
Theorem C45_levels_are_known_after_exchange :
  forall G r h c f p,
  (forall c, In c (cells G) -> rank_of c < nranks G) ->
  (forall c f p, In c (cells G) -> In f (faces G c) -> (f_nb f = Remote p \/ f_nb f = RemotePeriodic p) ->
     In p (cells G) /\ rank_of p <> rank_of c /\
     exists f', In f' (faces G p) /\ (f_nb f' = Remote c \/ f_nb f' = RemotePeriodic c)) ->
  In c (cells G) -> rank_of c = r -> In f (faces G c) -> (f_nb f = Remote p \/ f_nb f = RemotePeriodic p) ->
    communicate_levels G r h p = Some (lev G p).
Proof. exact levels_known. Qed.
Print Assumptions C45_levels_are_known_after_exchange.

Example C45_example :
  let G := row row_levels [0; 1] 1 in
  (map (fun cur => (torecv_init G 0 cur 1, torecv_init G 1 cur 0)) [0; 1] = [(2, 2); (0, 0)]) /\
  map (communicate_levels G 0 (fun _ => Some 7)) [(1, 0); (1, 1)] = [Some 0; Some 7] /\
  map (communicate_levels G 1 (fun _ => None)) [(0, 0); (0, 1); (1, 0)] = [Some 1; Some 1; None].
Proof. repeat split; vm_compute; reflexivity. Qed.
