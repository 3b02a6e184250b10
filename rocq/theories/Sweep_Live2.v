(** While some rank is not finished, some operation is bound to reduce the work:
    all fair schedules finish. *)
From Coq Require Import List Arith Bool Lia Permutation QArith Qcanon.
From Verif Require Import Sweep_Model Sweep_Spec Sweep_Util Sweep_Local Sweep_Inv Sweep_Count
  Sweep_Steps Sweep_Steps2 Sweep_Steps3 Sweep_Safety Sweep_Live.
Import ListNotations.
Local Open Scope nat_scope.

Section Live.
  Variable G : config.
  Hypothesis HG : consistent G.

  Notation inv := (inv G).
  Notation tasks := (tasks G).
  Notation unsolved := (unsolved G).
  Notation work := (work G).
  Notation quiet := (quiet G).
  Notation same := (same G).

  Inductive help := HDel (x y : nat) | HComp (x y : nat) | HSolve (r : nat) | HRecv (r x : nat)
                  | HSend (r y : nat) | HNext (r : nat).

  Definition nonempty {A} (l : list A) : bool := match l with [] => false | _ => true end.
  Lemma nonempty_spec : forall A (l : list A), nonempty l = true <-> l <> [].
  Proof. destruct l; cbn; split; congruence. Qed.

  Definition running (s : rstate) : bool := match pc s with PFinished => false | _ => true end.

  (** The operation has something to do. *)
  Definition cond (S : state) (h : help) : bool :=
    match h with
    | HDel x y => nonempty (net S x y)
    | HComp x y => is_pending (req (rs S x) y) && negb (nonempty (net S x y)) && negb (nonempty (mail S x y))
    | HSolve r => running (rs S r) && nonempty (queue (rs S r))
    | HRecv r x => running (rs S r) && nonempty (mail S x r) && (0 <? torecv (rs S r) x)
    | HSend r y => running (rs S r) &&
        match req (rs S r) y with RDone => true | RNone => nonempty (tosend (rs S r) y) | RPending => false end
    | HNext r => running (rs S r) && negb (loop_cond G r (rs S r))
    end.

  Definition valid (h : help) : Prop :=
    match h with
    | HDel x y | HComp x y | HRecv x y | HSend x y => x < nranks G /\ In y (others G x)
    | HSolve r | HNext r => r < nranks G
    end.

  Definition matches (o : op) (h : help) : Prop :=
    match h with
    | HDel x y => o = Deliver x y
    | HComp x y => exists b, o = Complete x y b
    | HSolve r | HRecv r _ | HSend r _ | HNext r => exists k, o = Run r k
    end.

  (** How many steps of the rank it takes at most to get to work. *)
  Definition dist_solve (p : pcs) : nat :=
    match p with PSolve _ => 0 | PHead => 1 | PSend => 2 | PRecv l => 1 + length l | PFinished => 0 end.

  Definition dist (S : state) (h : help) : nat :=
    match h with
    | HDel _ _ | HComp _ _ => 0
    | HSolve r => dist_solve (pc (rs S r))
    | HRecv r x =>
        if nonempty (queue (rs S r)) then dist_solve (pc (rs S r)) else
        let L := length (others G r) in
        match pc (rs S r) with
        | PRecv l => if existsb (Nat.eqb x) l then length l else length l + L + 10
        | PSolve _ => L + 9 | PSend => L + 8 | PHead => L + 7 | PFinished => 0
        end
    | HSend r y =>
        if nonempty (queue (rs S r)) then dist_solve (pc (rs S r)) else
        match pc (rs S r) with
        | PSend => 0 | PSolve _ => 1 | PRecv l => 2 + length l | PHead => 3 + length (others G r)
        | PFinished => 0
        end
    | HNext r =>
        match pc (rs S r) with
        | PHead => 0 | PSend => 1 | PSolve _ => 2 | PRecv l => 3 + length l | PFinished => 0
        end
    end.

  Lemma qstep_running : forall S r p p', qstep G S r p p' ->
    (p = PFinished <-> p' = PFinished).
  Proof. intros S r p p' Q. inversion Q; subst; split; congruence. Qed.

  Lemma dist_solve_qstep : forall S r p p', qstep G S r p p' -> queue (rs S r) <> [] -> p <> PFinished ->
    dist_solve p' < dist_solve p.
  Proof. intros S r p p' Q Hq Hp. inversion Q; subst; cbn; try lia; congruence. Qed.

  Lemma run_dec : forall o r, (exists k, o = Run r k) \/ (forall k, o <> Run r k).
  Proof.
    intros [r' k|x y|x y b] r; [|right; discriminate|right; discriminate].
    destruct (Nat.eq_dec r' r) as [->|]; [left; eauto|right; congruence].
  Qed.

  Lemma quiet_run : forall o S S' r, quiet o S S' -> r < nranks G ->
    running (rs S' r) = running (rs S r) /\
    ((exists k, o = Run r k) /\ qstep G S r (pc (rs S r)) (pc (rs S' r)) \/
     (forall k, o <> Run r k) /\ pc (rs S' r) = pc (rs S r)).
  Proof.
    intros o S S' r (Sm & Q1 & Q2 & _) Hr. unfold running.
    destruct (run_dec o r) as [(k & E)|E].
    - specialize (Q2 r k Hr E). split; [|left; split; eauto].
      pose proof (qstep_running _ _ _ _ Q2) as Q. destruct (pc (rs S r)), (pc (rs S' r)); try reflexivity; exfalso;
        try (destruct Q as [Q _]; specialize (Q eq_refl); discriminate);
        destruct Q as [_ Q]; specialize (Q eq_refl); discriminate.
    - specialize (Q1 r Hr E). rewrite Q1. auto.
  Qed.

  Lemma help_step : forall S o S' h, inv S -> valid h -> cond S h = true -> step G S o = Some S' ->
    work S' < work S \/
    (work S' = work S /\ cond S' h = true /\ dist S' h <= dist S h /\ (matches o h -> dist S' h < dist S h)).
  Proof.
    intros S o S' h J Hv Hc E. destruct (step_progress G HG S o S' J E) as [Hw|Q]; [left; auto|right].
    assert (Sm : same S S') by apply Q.
    split; [apply (same_work G); auto|].
    destruct h as [x y|x y|r|r x|r y|r]; cbn [valid] in Hv; cbn [cond] in *.
    - destruct Hv as [Hx Hy]. rewrite (sm_net _ _ _ Sm) by auto. split; [auto|]. split; [cbn; lia|].
      intros Hm. cbn in Hm. destruct Q as (_ & _ & _ & Q & _). rewrite (Q x y Hx Hy Hm) in Hc. discriminate.
    - destruct Hv as [Hx Hy]. rewrite (sm_net _ _ _ Sm), (sm_req _ _ _ Sm), (sm_mail _ _ _ Sm) by auto.
      split; [auto|]. split; [cbn; lia|].
      intros (b & Hm). destruct Q as (_ & _ & _ & _ & Q). exfalso.
      rewrite !andb_true_iff, !negb_true_iff in Hc. destruct Hc as [[H1 H2] H3].
      destruct (Q x y b Hx Hy Hm) as [H|[H|H]].
      + destruct (req (rs S x) y); try discriminate. congruence.
      + apply nonempty_spec in H. congruence.
      + apply nonempty_spec in H. congruence.
    - destruct (quiet_run o S S' r Q Hv) as [Hrun Hpc]. rewrite Hrun, (sm_queue _ _ _ Sm) by auto. split; [auto|].
      apply andb_true_iff in Hc. destruct Hc as [Hr Hq]. apply nonempty_spec in Hq. cbn [dist].
      destruct Hpc as [[_ Hpc]|[Hno Hpc]].
      + apply dist_solve_qstep in Hpc; auto; [split; [lia|auto]|]. unfold running in Hr. destruct (pc (rs S r)); congruence.
      + rewrite Hpc. split; [lia|]. intros (k & Hk). destruct (Hno k Hk).
    - destruct Hv as [Hv Hx]. assert (Hx' := Hx). apply in_others in Hx'. destruct Hx' as [Hxn Hxr].
      destruct (quiet_run o S S' r Q Hv) as [Hrun Hpc].
      rewrite Hrun, (sm_torecv _ _ _ Sm), (sm_mail _ _ _ Sm) by (auto; apply in_others; auto). split; [auto|].
      rewrite !andb_true_iff in Hc. destruct Hc as [[Hr Hm] Ht]. apply nonempty_spec in Hm. apply Nat.ltb_lt in Ht.
      cbn [dist]. rewrite (sm_queue _ _ _ Sm) by auto.
      destruct Hpc as [[_ Hpc]|[Hno Hpc]].
      2:{ rewrite Hpc. split; [lia|]. intros (k & Hk). destruct (Hno k Hk). }
      destruct (nonempty (queue (rs S r))) eqn:Hq.
      { apply nonempty_spec in Hq. apply dist_solve_qstep in Hpc; auto; [split; [lia|auto]|].
        unfold running in Hr. destruct (pc (rs S r)); congruence. }
      assert (Hq' : queue (rs S r) = []) by (destruct (queue (rs S r)); [auto|discriminate]).
      assert (dist S' (HRecv r x) < dist S (HRecv r x)).
      { cbn [dist]. rewrite (sm_queue _ _ _ Sm), Hq by auto. unfold running in Hr.
        inversion Hpc as [A1 A2 B1 B2|A1 A2 B1 B2|B1 B2|z l A1 B1 B2|n A1 B1 B2|A1 B1 B2|B1 B2].
        - rewrite (proj2 (existsb_exists _ _)); [lia|]. exists x. rewrite Nat.eqb_refl. auto.
        - congruence.
        - cbn. lia.
        - cbn [existsb length]. destruct (Nat.eqb_spec x z) as [->|Hz]; cbn [orb].
          + destruct A1 as [A1|A1]; [lia|congruence].
          + destruct (existsb (Nat.eqb x) l); lia.
        - lia.
        - lia.
        - rewrite <- B1 in Hr. discriminate. }
      cbn [dist] in H. rewrite (sm_queue _ _ _ Sm), Hq in H by auto. split; [lia|auto].
    - destruct Hv as [Hv Hx].
      destruct (quiet_run o S S' r Q Hv) as [Hrun Hpc].
      rewrite Hrun, (sm_req _ _ _ Sm), (sm_tosend _ _ _ Sm) by auto. split; [auto|].
      apply andb_true_iff in Hc. destruct Hc as [Hr Hs].
      cbn [dist]. rewrite (sm_queue _ _ _ Sm) by auto.
      destruct Hpc as [[_ Hpc]|[Hno Hpc]].
      2:{ rewrite Hpc. split; [lia|]. intros (k & Hk). destruct (Hno k Hk). }
      destruct (nonempty (queue (rs S r))) eqn:Hq.
      { apply nonempty_spec in Hq. apply dist_solve_qstep in Hpc; auto; [split; [lia|auto]|].
        unfold running in Hr. destruct (pc (rs S r)); congruence. }
      assert (Hq' : queue (rs S r) = []) by (destruct (queue (rs S r)); [auto|discriminate]).
      assert (dist S' (HSend r y) < dist S (HSend r y)).
      { cbn [dist]. rewrite (sm_queue _ _ _ Sm), Hq by auto. unfold running in Hr.
        inversion Hpc as [A1 A2 B1 B2|A1 A2 B1 B2|B1 B2|z l A1 B1 B2|n A1 B1 B2|A1 B1 B2|B1 B2].
        - lia.
        - congruence.
        - cbn. lia.
        - cbn [length]. lia.
        - lia.
        - destruct (A1 y Hx) as [A2 A3]. exfalso. destruct (req (rs S r) y); try discriminate.
          + rewrite A3 in Hs by auto. discriminate.
          + congruence.
        - rewrite <- B1 in Hr. discriminate. }
      cbn [dist] in H. rewrite (sm_queue _ _ _ Sm), Hq in H by auto. split; [lia|auto].
    - destruct (quiet_run o S S' r Q Hv) as [Hrun Hpc]. rewrite Hrun, (sm_cond _ _ _ Sm) by auto. split; [auto|].
      apply andb_true_iff in Hc. destruct Hc as [Hr Hq]. apply negb_true_iff in Hq. unfold running in Hr.
      assert (H : (exists k, o = Run r k) /\ dist S' (HNext r) < dist S (HNext r) \/
         (forall k, o <> Run r k) /\ dist S' (HNext r) = dist S (HNext r)).
      { cbn [dist]. destruct Hpc as [[Hk Hpc]|[Hno Hpc]]; [left; split; [auto|]|right; rewrite Hpc; auto].
        inversion Hpc as [A1 A2 B1 B2|A1 A2 B1 B2|B1 B2|z l A1 B1 B2|n A1 B1 B2|A1 B1 B2|B1 B2]; try congruence; cbn [length]; try lia.
        rewrite <- B1 in Hr. discriminate. }
      destruct H as [[_ H]|[H1 H]]; (split; [lia|]); auto. intros (k & Hk). destruct (H1 k Hk).
  Qed.

  (** ** Something can always be done *)
  Definition pairs : list (nat * nat) :=
    flat_map (fun x => map (fun y => (x, y)) (others G x)) (seq 0 (nranks G)).
  Definition candidates : list help :=
    flat_map (fun xy => [HDel (fst xy) (snd xy); HComp (fst xy) (snd xy); HRecv (fst xy) (snd xy); HSend (fst xy) (snd xy)]) pairs ++
    flat_map (fun r => [HSolve r; HNext r]) (seq 0 (nranks G)).

  Lemma candidates_valid : forall h, In h candidates <-> valid h.
  Proof.
    assert (Hp : forall x y, In (x, y) pairs <-> x < nranks G /\ In y (others G x)).
    { intros x y. unfold pairs. rewrite in_flat_map. split.
      - intros (z & Hz & H). apply in_map_iff in H. destruct H as (w & E & H). injection E as -> ->.
        apply in_seq in Hz. split; [lia|auto].
      - intros [H1 H2]. exists x. split; [apply in_seq; lia|]. apply in_map_iff. eauto. }
    intros h. unfold candidates. rewrite in_app_iff, !in_flat_map. split.
    - intros [([x y] & H & Hin)|(r & H & Hin)].
      + apply Hp in H. cbn in Hin. intuition (subst; cbn; auto).
      + apply in_seq in H. cbn in Hin. intuition (subst; cbn; auto; lia).
    - destruct h as [x y|x y|r|r x|r y|r]; cbn [valid]; intros H.
      + left. exists (x, y). rewrite Hp. cbn. auto.
      + left. exists (x, y). rewrite Hp. cbn. auto.
      + right. exists r. rewrite in_seq. cbn. split; [lia|auto].
      + left. exists (r, x). rewrite Hp. cbn. auto.
      + left. exists (r, y). rewrite Hp. cbn. auto 10.
      + right. exists r. rewrite in_seq. cbn. split; [lia|auto].
  Qed.

  Hypothesis HA : acyclic G.

  Lemma argmin : forall A (f : A -> nat) l, l <> [] -> exists a, In a l /\ forall b, In b l -> f a <= f b.
  Proof.
    induction l as [|a l IH]; [congruence|]. intros _. destruct l as [|b l].
    - exists a. split; [left; auto|]. intros b [<-|[]]; lia.
    - destruct IH as (c & Hc & H); [discriminate|]. destruct (Nat.le_gt_cases (f a) (f c)).
      + exists a. split; [left; auto|]. intros z [<-|Hz]; [lia|]. specialize (H z Hz). lia.
      + exists c. split; [right; auto|]. intros z [<-|Hz]; [lia|auto].
  Qed.

  (** A message of the lagging sweep on its way to a rank still in that sweep can
      be moved. *)
  Lemma message_moves : forall S e x y, inv S -> x < nranks G -> y < nranks G -> x <> y ->
    e < length (sweeps G) -> ep (rs S y) = e -> e <= ep (rs S x) -> ofep e (flight S x y) <> [] ->
    net S x y <> [] \/ cond S (HRecv y x) = true \/ cond S (HSend x y) = true \/ cond S (HComp x y) = true.
  Proof.
    intros S e x y J Hx Hy Hxy He Hey Hex Hfl.
    pose proof (i_pair _ _ J x y Hx Hy Hxy) as Pr. pose proof (i_rank _ _ J x Hx) as Rx. pose proof (i_rank _ _ J y Hy) as Ry.
    destruct (net S x y) as [|b rest] eqn:Hn; [right|left; discriminate].
    assert (Hrun : running (rs S y) = true).
    { unfold running. destruct (pc (rs S y)) eqn:E; auto. destruct (r_ep _ _ _ Ry) as [[_ Y]|[Y _]]; [lia|contradiction]. }
    destruct (mail S x y) as [|b rest] eqn:Hm.
    - right. assert (Hts : tosend (rs S x) y <> []).
      { intros Y. apply Hfl. unfold flight, stream. rewrite Hm, Hn, Y. reflexivity. }
      assert (Hxe : ep (rs S x) = e).
      { unfold flight, stream in Hfl. rewrite Hm, Hn in Hfl. cbn [app concat] in Hfl.
        destruct (ofep e (tosend (rs S x) y)) as [|m l] eqn:E; [congruence|].
        assert (Hin : In m (ofep e (tosend (rs S x) y))) by (rewrite E; left; auto).
        unfold ofep in Hin. apply filter_In in Hin. rewrite Nat.eqb_eq in Hin. destruct Hin as [Hin <-].
        symmetry. apply (p_tosend _ _ _ _ _ _ _ _ _ Pr m Hin). }
      assert (Hrunx : running (rs S x) = true).
      { unfold running. destruct (pc (rs S x)) eqn:E; auto. destruct (r_ep _ _ _ Rx) as [[_ Y]|[Y _]]; [lia|contradiction]. }
      cbn [cond]. rewrite Hrunx, Hn, Hm. cbn [andb negb nonempty].
      destruct (req (rs S x) y) eqn:Hq; auto. left. apply nonempty_spec. auto.
    - left. cbn [cond]. rewrite Hrun, Hm. cbn [andb nonempty]. apply Nat.ltb_lt.
      rewrite (p_torecv _ _ _ _ _ _ _ _ _ Pr), Hey. fold (flight S x y).
      destruct (ofep e (flight S x y)); [congruence|]. cbn [length]. lia.
  Qed.

  Lemma min_ep : forall S, (exists r, r < nranks G /\ ep (rs S r) < length (sweeps G)) ->
    exists r, r < nranks G /\ ep (rs S r) < length (sweeps G) /\
      forall z, z < nranks G -> ep (rs S r) <= ep (rs S z).
  Proof.
    intros S (r & Hr & He).
    destruct (argmin _ (fun r => ep (rs S r)) (seq 0 (nranks G))) as (z & Hz & Hmin).
    - destruct (nranks G); [lia|discriminate].
    - exists z. apply in_seq in Hz. split; [lia|].
      assert (Hm : forall w, w < nranks G -> ep (rs S z) <= ep (rs S w)) by (intros; apply Hmin, in_seq; lia).
      split; [specialize (Hm r Hr); lia|auto].
  Qed.

  Lemma help_exists : forall S, inv S -> ~ finished G S -> exists h, valid h /\ cond S h = true.
  Proof.
    intros S J NF.
    destruct (existsb (cond S) candidates) eqn:Ex.
    { apply existsb_exists in Ex. destruct Ex as (h & Hh & Hc). exists h. rewrite <- candidates_valid. auto. }
    exfalso.
    assert (No : forall h, valid h -> cond S h = false).
    { intros h Hh. destruct (cond S h) eqn:E; [|reflexivity]. exfalso.
      rewrite (proj2 (existsb_exists _ _)) in Ex; [discriminate|]. exists h. rewrite candidates_valid. auto. }
    assert (Hnet : forall x y, x < nranks G -> y < nranks G -> x <> y -> net S x y = []).
    { intros x y Hx Hy Hxy. specialize (No (HDel x y)). cbn in No.
      destruct (net S x y); [auto|]. discriminate No. split; auto. apply in_others; auto. }
    assert (Hmsg : forall e x y, x < nranks G -> y < nranks G -> x <> y -> e < length (sweeps G) ->
       ep (rs S y) = e -> e <= ep (rs S x) -> ofep e (flight S x y) = []).
    { intros e x y Hx Hy Hxy He Hey Hex. destruct (ofep e (flight S x y)) as [|m l] eqn:E; [auto|exfalso].
      assert (Ho : In y (others G x)) by (apply in_others; auto).
      assert (Ho' : In x (others G y)) by (apply in_others; auto).
      destruct (message_moves S e x y J Hx Hy Hxy He Hey Hex) as [H|[H|[H|H]]].
      - rewrite E. discriminate.
      - apply H. auto.
      - rewrite No in H; [discriminate|]. cbn; auto.
      - rewrite No in H; [discriminate|]. cbn; auto.
      - rewrite No in H; [discriminate|]. cbn; auto. }
    assert (Hsome : exists r, r < nranks G /\ ep (rs S r) < length (sweeps G)).
    { destruct (forall_or_exists nat (fun r => pc (rs S r) = PFinished) (fun r => ep (rs S r) < length (sweeps G))
        (seq 0 (nranks G))) as [H|(r & Hr & H)].
      - intros r Hr. apply in_seq in Hr. destruct (r_ep _ _ _ (i_rank _ _ J r ltac:(lia))) as [[Y _]|[_ Y]]; auto.
      - exfalso. apply NF. intros r Hr. apply H, in_seq. lia.
      - exists r. apply in_seq in Hr. split; [lia|auto]. }
    destruct (min_ep S Hsome) as (r & Hr & He & Hmin). set (e := ep (rs S r)) in *.
    destruct (nth_error (sweeps G) e) as [cur|] eqn:Ecur; [|apply nth_error_None in Ecur; lia].
    assert (Hact : forall p, act G e p = true <-> cur <= lev G p).
    { intros p. unfold act. rewrite Ecur. apply Nat.leb_le. }
    (* no task of this sweep is left *)
    assert (Hun : forall z, z < nranks G -> unsolved (log (rs S z)) z e = []).
    { set (all := flat_map (fun z => unsolved (log (rs S z)) z e) (seq 0 (nranks G))).
      assert (Hall : forall t, In t all -> In t (unsolved (log (rs S (rank_of (fst t)))) (rank_of (fst t)) e) /\
                 In (fst t) (cells G) /\ snd t < ndirs G /\ act G e (fst t) = true).
      { intros t Ht. unfold all in Ht. apply in_flat_map in Ht. destruct Ht as (z & Hz & Ht).
        assert (Ht' := Ht). apply in_unsolved in Ht'. destruct Ht' as [Ht' _]. apply in_tasks in Ht'.
        destruct Ht' as (H1 & H2 & H3 & H4). rewrite H2. auto. }
      assert (Hin : forall z t, z < nranks G -> In t (unsolved (log (rs S z)) z e) -> In t all).
      { intros z t Hz Ht. unfold all. apply in_flat_map. exists z. split; [apply in_seq; lia|auto]. }
      destruct all as [|t0 al] eqn:Eall.
      { intros z Hz. destruct (unsolved (log (rs S z)) z e) as [|t l] eqn:E; [auto|].
        exfalso. apply (Hin z t Hz). rewrite E. left; auto. }
      exfalso. rewrite <- Eall in *.
      destruct (HA cur) as (ord & Hord); [apply nth_error_In in Ecur; auto|].
      destruct (argmin _ (fun t => ord (snd t) (fst t)) all) as (t & Ht & Hleast); [rewrite Eall; discriminate|].
      destruct (Hall t Ht) as (Hu & Hc & Hd & Ha). destruct t as [c d]. cbn [fst snd] in *.
      set (q := rank_of c) in *. pose proof (c_rank _ HG c Hc) as Hq. fold q in Hq.
      pose proof (i_rank _ _ J q Hq) as Rq.
      assert (Heq : ep (rs S q) = e).
      { specialize (Hmin q Hq). destruct (Nat.eq_dec (ep (rs S q)) e) as [|Hne]; [auto|exfalso].
        rewrite (unsolved_done G q (rs S q) e Rq) in Hu by lia. destruct Hu. }
      assert (Hqq : queue (rs S q) = []).
      { specialize (No (HSolve q) Hq). cbn [cond] in No. unfold running in No.
        destruct (r_ep _ _ _ Rq) as [[_ Y]|[Y _]]; [lia|].
        destruct (queue (rs S q)); [auto|]. destruct (pc (rs S q)); try discriminate. congruence. }
      assert (Hmiss : miss (rs S q) c d <> 0).
      { intros Y. assert (Z : In (c, d) (queue (rs S q))) by (apply (r_queue _ _ _ Rq); rewrite Heq; auto).
        rewrite Hqq in Z. destruct Z. }
      apply Hmiss. unfold q. rewrite (i_miss _ _ J c d Hc Hd) by (fold q; rewrite Heq; auto).
      fold q. rewrite Heq.
      (* an upwind task comes earlier in the order *)
      assert (Hup : forall p d', In (p, d') all -> d' = d -> forall f, In f (faces G p) -> downwind f d = true ->
         face_to c f = true -> False).
      { intros p d' Hp Ed f Hf Hdw Hto. subst d'. destruct (Hall _ Hp) as (_ & Hpc & _ & Hpa). cbn [fst snd] in *.
        pose proof (Hord p c f d Hpc Hf Hd Hdw Hto (proj1 (Hact p) Hpa) (proj1 (Hact c) Ha)) as Hlt.
        specialize (Hleast _ Hp). cbn [fst snd] in Hleast. lia. }
      unfold missing_sum.
      assert (Z1 : cntm c d (owedL G k0 (log (rs S q)) q e) = 0).
      { apply countb_zero. intros m Hm. unfold owedL in Hm. apply in_flat_map in Hm. destruct Hm as ([p d'] & Hp & Hm).
        destruct (isfor c d m) eqn:Em; [exfalso|reflexivity].
        unfold isfor in Em. rewrite !andb_true_iff, negb_true_iff, Nat.eqb_eq in Em. destruct Em as [[Em1 Em2] Em3].
        destruct (pid_eqb_spec (m_id m) c) as [Emc|]; [|discriminate].
        unfold lm in Hm. cbn [fst snd] in Hm.
        unfold lmsgs in Hm. apply in_flat_map in Hm. destruct Hm as (f & Hf & Hm). unfold lmsg1 in Hm.
        destruct (downwind f d') eqn:Edw; [|destruct Hm].
        destruct (f_nb f) as [w|w| |w|w] eqn:En; try destruct Hm as []; try contradiction; subst m; cbn in *; try discriminate.
        apply (Hup p d' (Hin q _ Hq Hp) Em2 f Hf); [rewrite <- Em2; auto|]. unfold face_to. rewrite En, Emc. apply pid_eqb_refl. }
      rewrite Z1. cbn [Nat.add]. apply list_sum_map_zero. intros x Hx. apply in_others in Hx. destruct Hx as [Hx Hxq].
      rewrite (Hmsg e x q Hx Hq Hxq He Heq (Hmin x Hx)). rewrite Nat.add_comm. cbn [cntm countb filter length Nat.add].
      apply countb_zero. intros m Hm. unfold owed in Hm. apply in_flat_map in Hm. destruct Hm as ([p d'] & Hp & Hm).
      destruct (isfor c d m) eqn:Em; [exfalso|reflexivity].
      unfold isfor in Em. rewrite !andb_true_iff, negb_true_iff, Nat.eqb_eq in Em. destruct Em as [[Em1 Em2] Em3].
      destruct (pid_eqb_spec (m_id m) c) as [Emc|]; [|discriminate].
      unfold om in Hm. cbn [fst snd] in Hm.
      unfold omsgs in Hm. apply in_flat_map in Hm. destruct Hm as (f & Hf & Hm). unfold omsg1 in Hm.
      destruct (downwind f d') eqn:Edw; [|destruct Hm].
      destruct (f_nb f) as [w|w| |w|w] eqn:En; try destruct Hm as [];
        destruct (act G e w && (rank_of w =? q)); try destruct Hm as []; try contradiction; subst m; cbn in *; try discriminate.
      apply (Hup p d' (Hin x _ Hx Hp) Em2 f Hf); [rewrite <- Em2; auto|]. unfold face_to. rewrite En, Emc. apply pid_eqb_refl. }
    (* the lagging rank can go on to the next sweep *)
    pose proof (i_rank _ _ J r Hr) as R.
    assert (Hrun : running (rs S r) = true).
    { unfold running. destruct (r_ep _ _ _ R) as [[_ Y]|[Y _]]; [fold e in Y; lia|]. destruct (pc (rs S r)); auto. }
    specialize (No (HNext r) Hr) as Hnext. cbn [cond] in Hnext. rewrite Hrun in Hnext. cbn [andb] in Hnext.
    apply negb_false_iff in Hnext. unfold loop_cond in Hnext. rewrite !orb_true_iff, !Nat.ltb_lt in Hnext.
    assert (Hcnt : total_cnt G (rs S r) = 0).
    { unfold total_cnt. apply list_sum_map_zero. intros d Hd. apply in_seq in Hd.
      rewrite (r_cnt _ _ _ R d) by lia. fold e. rewrite (Hun r Hr). reflexivity. }
    assert (Htr : total_torecv G r (rs S r) = 0).
    { unfold total_torecv. apply list_sum_map_zero. intros x Hx. apply in_others in Hx. destruct Hx as [Hx Hxr].
      rewrite (p_torecv _ _ _ _ _ _ _ _ _ (i_pair _ _ J x r Hx Hr Hxr)). fold e. fold (flight S x r).
      rewrite (Hmsg e x r Hx Hr Hxr He eq_refl (Hmin x Hx)). unfold owed. rewrite (Hun x Hx). reflexivity. }
    assert (Hbuf : total_buf G r (rs S r) = 0).
    { unfold total_buf. apply list_sum_map_zero. intros y Hy. assert (Hy' := Hy). apply in_others in Hy'. destruct Hy' as [Hyn Hyr].
      destruct (buf (rs S r) y) as [|m b] eqn:Hb; [reflexivity|exfalso].
      assert (Hreq : req (rs S r) y <> RNone) by (intros Y; apply (r_req _ _ _ R y Hy) in Y; congruence).
      specialize (No (HSend r y) (conj Hr Hy)) as N1. cbn [cond] in N1. rewrite Hrun in N1. cbn [andb] in N1.
      specialize (No (HComp r y) (conj Hr Hy)) as N2. cbn [cond] in N2. rewrite (Hnet r y Hr Hyn (not_eq_sym Hyr)) in N2.
      destruct (req (rs S r) y) eqn:Eq; try congruence. cbn [is_pending andb nonempty negb] in N2.
      apply negb_false_iff in N2. apply nonempty_spec in N2.
      destruct (mail S r y) as [|bt rest] eqn:Em; [congruence|].
      pose proof (i_pair _ _ J r y Hr Hyn (not_eq_sym Hyr)) as Pr.
      assert (Hst : stream S r y = bt :: rest).
      { unfold stream. rewrite Em, (Hnet r y Hr Hyn (not_eq_sym Hyr)), app_nil_r. reflexivity. }
      destruct (p_batch _ _ _ _ _ _ _ _ _ Pr bt) as [Hne _]; [rewrite Hst; left; auto|].
      destruct bt as [|m0 bt]; [congruence|].
      assert (Hm0 : In m0 (flight S r y)) by (unfold flight; rewrite Hst; left; auto).
      destruct (p_tags _ _ _ _ _ _ _ _ _ Pr m0 Hm0) as [T1 T2]. fold e in T2.
      pose proof (Hmin y Hyn) as T3.
      assert (Hz : ofep e (flight S r y) = []).
      { apply (Hmsg e r y Hr Hyn (not_eq_sym Hyr) He); [lia|]. fold e. lia. }
      assert (Hz' : In m0 (ofep e (flight S r y))).
      { unfold ofep. apply filter_In. split; auto. apply Nat.eqb_eq. lia. }
      rewrite Hz in Hz'. destruct Hz'. }
    lia.
  Qed.

  (** ** Fair schedules *)
  Definition fair (sched : nat -> op) : Prop := forall n,
    (forall r, r < nranks G -> exists m k, n <= m /\ sched m = Run r k) /\
    (forall x y, x < nranks G -> y < nranks G -> x <> y ->
       (exists m, n <= m /\ sched m = Deliver x y) /\
       (exists m b, n <= m /\ sched m = Complete x y b)).

  Lemma fair_matches : forall sched h n, fair sched -> valid h -> exists m, n <= m /\ matches (sched m) h.
  Proof.
    intros sched h n F Hv. destruct (F n) as [F1 F2].
    destruct h as [x y|x y|r|r x|r y|r]; cbn [valid] in Hv; cbn [matches].
    - destruct Hv as [Hx Hy]. apply in_others in Hy. destruct (F2 x y) as [(m & Hm & E) _]; [tauto|tauto|intuition|eauto].
    - destruct Hv as [Hx Hy]. apply in_others in Hy. destruct (F2 x y) as [_ (m & b & Hm & E)]; [tauto|tauto|intuition|].
      exists m. eauto.
    - destruct (F1 r Hv) as (m & k & Hm & E). exists m. eauto.
    - destruct (F1 r (proj1 Hv)) as (m & k & Hm & E). exists m. eauto.
    - destruct (F1 r (proj1 Hv)) as (m & k & Hm & E). exists m. eauto.
    - destruct (F1 r Hv) as (m & k & Hm & E). exists m. eauto.
  Qed.

  (** The operations number [n], ..., [n + len - 1]. *)
  Definition segment (sched : nat -> op) (n len : nat) : list op := map sched (seq n len).

  Lemma segment_S : forall sched n len, segment sched n (S len) = sched n :: segment sched (S n) len.
  Proof. reflexivity. Qed.

  Lemma exec_app : forall ops1 ops2 S S', exec G S ops1 = Some S' -> exec G S (ops1 ++ ops2) = exec G S' ops2.
  Proof.
    induction ops1 as [|o ops1 IH]; intros ops2 S S' E; cbn in *; [congruence|].
    destruct (step G S o); [|discriminate]. auto.
  Qed.

  Lemma segment_app : forall sched n a b, segment sched n (a + b) = segment sched n a ++ segment sched (n + a) b.
  Proof. intros. unfold segment. rewrite seq_app, map_app. reflexivity. Qed.

  (** Until the next matching operation the work is reduced or the operation
      comes closer. *)
  Lemma next_match : forall sched h gap n S, inv S -> valid h -> cond S h = true ->
    matches (sched (n + gap)) h ->
    exists len S', exec G S (segment sched n len) = Some S' /\ inv S' /\
      (work S' < work S \/ (work S' = work S /\ cond S' h = true /\ dist S' h < dist S h)).
  Proof.
    intros sched h. induction gap as [|gap IH]; intros n S J Hv Hc Hm.
    - destruct (step_inv G HG S (sched n) J) as (S' & E & J'). exists 1, S'. cbn. rewrite E.
      split; [auto|]. split; [auto|]. rewrite Nat.add_0_r in Hm.
      destruct (help_step S (sched n) S' h J Hv Hc E) as [H|(H1 & H2 & H3 & H4)]; auto.
    - destruct (step_inv G HG S (sched n) J) as (S' & E & J').
      destruct (help_step S (sched n) S' h J Hv Hc E) as [H|(H1 & H2 & H3 & H4)].
      + exists 1, S'. cbn. rewrite E. auto.
      + destruct (IH (Datatypes.S n) S' J' Hv H2) as (len & S'' & E' & J'' & H).
        { replace (Datatypes.S n + gap) with (n + Datatypes.S gap) by lia. auto. }
        exists (Datatypes.S len), S''. rewrite segment_S. cbn [exec]. rewrite E. split; [auto|]. split; [auto|].
        destruct H as [H|(H5 & H6 & H7)]; [left; lia|right; split; [lia|split; [auto|lia]]].
  Qed.

  Lemma work_decreases : forall sched h, fair sched -> valid h -> forall k n S, inv S -> cond S h = true -> dist S h <= k ->
    exists len S', exec G S (segment sched n len) = Some S' /\ inv S' /\ work S' < work S.
  Proof.
    intros sched h F Hv. induction k as [|k IH]; intros n S J Hc Hd.
    - destruct (fair_matches sched h n F Hv) as (m & Hm & Hmt).
      destruct (next_match sched h (m - n) n S J Hv Hc) as (len & S' & E & J' & [H|(_ & _ & H)]).
      + replace (n + (m - n)) with m by lia. auto.
      + exists len, S'. auto.
      + lia.
    - destruct (fair_matches sched h n F Hv) as (m & Hm & Hmt).
      destruct (next_match sched h (m - n) n S J Hv Hc) as (len & S' & E & J' & [H|(H1 & H2 & H3)]).
      + replace (n + (m - n)) with m by lia. auto.
      + exists len, S'. auto.
      + destruct (IH (n + len) S' J' H2) as (len' & S'' & E' & J'' & H); [lia|].
        exists (len + len'), S''. rewrite segment_app, (exec_app _ _ _ _ E). split; [auto|]. split; [auto|lia].
  Qed.

  Lemma finished_dec : forall S, finished G S \/ ~ finished G S.
  Proof.
    intros S. destruct (forallb (fun r => negb (running (rs S r))) (seq 0 (nranks G))) eqn:E.
    - left. intros r Hr. rewrite forallb_forall in E. specialize (E r). rewrite in_seq in E.
      unfold running in E. destruct (pc (rs S r)); auto; discriminate E; lia.
    - right. intros H. rewrite (proj2 (forallb_forall _ _)) in E; [discriminate|].
      intros r Hr. apply in_seq in Hr. unfold running. rewrite (H r) by lia. reflexivity.
  Qed.

  Lemma fair_finishes : forall sched, fair sched -> forall w n S, inv S -> work S <= w ->
    exists len S', exec G S (segment sched n len) = Some S' /\ finished G S'.
  Proof.
    intros sched F. induction w as [|w IH]; intros n S J Hw.
    - destruct (finished_dec S) as [Hf|Hf]; [exists 0, S; auto|].
      destruct (help_exists S J Hf) as (h & Hv & Hc).
      destruct (work_decreases sched h F Hv (dist S h) n S J Hc (le_n _)) as (len & S' & E & J' & H). lia.
    - destruct (finished_dec S) as [Hf|Hf]; [exists 0, S; auto|].
      destruct (help_exists S J Hf) as (h & Hv & Hc).
      destruct (work_decreases sched h F Hv (dist S h) n S J Hc (le_n _)) as (len & S' & E & J' & H).
      destruct (IH (n + len) S' J') as (len' & S'' & E' & Hf'); [lia|].
      exists (len + len'), S''. rewrite segment_app, (exec_app _ _ _ _ E). auto.
  Qed.
End Live.
