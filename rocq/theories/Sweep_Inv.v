(** Invariants of the distributed sweep. *)
From Coq Require Import List Arith Bool Lia Permutation QArith Qcanon.
From Verif Require Import Sweep_Model Sweep_Spec Sweep_Util Sweep_Local.
Import ListNotations.
Local Open Scope nat_scope.

Definition strip (m : msg) : msg := mkMsg (m_id m) (m_dir m) 0%Qc (m_periodic m) (m_ep m).

Lemma isfor_strip : forall c d m, isfor c d (strip m) = isfor c d m.
Proof. reflexivity. Qed.

Lemma cntm_strip : forall c d l, cntm c d (map strip l) = cntm c d l.
Proof.
  induction l as [|m l IH]; [reflexivity|]. cbn [map]. rewrite !cntm_cons, IH, isfor_strip. reflexivity.
Qed.

Section Inv.
  Variable G : config.

  Definition tasks (r e : nat) : list (pid * nat) :=
    list_prod (filter (act G e) (own_cells G r)) (seq 0 (ndirs G)).

  Lemma in_tasks : forall r e t, In t (tasks r e) <->
    In (fst t) (cells G) /\ rank_of (fst t) = r /\ act G e (fst t) = true /\ snd t < ndirs G.
  Proof.
    intros r e [c d]. unfold tasks. rewrite in_prod_iff, filter_In, in_own_cells, in_seq. cbn. intuition lia.
  Qed.

  Definition solvedb (lg : list (nat * pid * nat)) (e : nat) (t : pid * nat) : bool :=
    existsb (fun x => (fst (fst x) =? e) && pid_eqb (snd (fst x)) (fst t) && (snd x =? snd t)) lg.

  Lemma solvedb_spec : forall lg e t, solvedb lg e t = true <-> In (e, fst t, snd t) lg.
  Proof.
    intros lg e t. unfold solvedb. rewrite existsb_exists. split.
    - intros ([[e' c] d] & Hin & H). cbn [fst snd] in H.
      rewrite !andb_true_iff, !Nat.eqb_eq in H. destruct H as [[He Hc] Hd].
      destruct (pid_eqb_spec c (fst t)); [|discriminate]. subst. auto.
    - intros H. eexists; split; [exact H|]. cbn [fst snd].
      rewrite !Nat.eqb_refl, pid_eqb_refl. reflexivity.
  Qed.

  Definition unsolved (lg : list (nat * pid * nat)) (r e : nat) : list (pid * nat) :=
    filter (fun t => negb (solvedb lg e t)) (tasks r e).

  Lemma in_unsolved : forall lg r e t, In t (unsolved lg r e) <->
    In t (tasks r e) /\ ~ In (e, fst t, snd t) lg.
  Proof.
    intros. unfold unsolved. rewrite filter_In, negb_true_iff, <- solvedb_spec.
    destruct (solvedb lg e t); intuition discriminate.
  Qed.

  Definition om (k : nat -> pid -> nat -> Qc) (e : nat) (y : nat) (t : pid * nat) : list msg :=
    omsgs G e (snd t) (k e (fst t) (snd t)) (total_eff_area (faces G (fst t)) (snd t))
      (faces G (fst t)) y.
  Definition lm (k : nat -> pid -> nat -> Qc) (e : nat) (t : pid * nat) : list msg :=
    lmsgs e (snd t) (k e (fst t) (snd t)) (total_eff_area (faces G (fst t)) (snd t))
      (faces G (fst t)).

  Definition owed k lg x y e : list msg := flat_map (om k e y) (unsolved lg x e).
  Definition owedL k lg r e : list msg := flat_map (lm k e) (unsolved lg r e).
  Definition expected k x y e : list msg := flat_map (om k e y) (tasks x e).

  Definition k0 : nat -> pid -> nat -> Qc := fun _ _ _ => 0%Qc.

  Definition ofep (e : nat) (l : list msg) : list msg := filter (fun m => m_ep m =? e) l.

  Lemma ofep_app : forall e l1 l2, ofep e (l1 ++ l2) = ofep e l1 ++ ofep e l2.
  Proof. intros. apply filter_app. Qed.

  Lemma ofep_all : forall e l, (forall m, In m l -> m_ep m = e) -> ofep e l = l.
  Proof.
    induction l as [|m l IH]; intros H; [reflexivity|]. cbn.
    rewrite (H m) by (left; auto). rewrite Nat.eqb_refl. f_equal. apply IH. intros; apply H; right; auto.
  Qed.

  Lemma ofep_none : forall e l, (forall m, In m l -> m_ep m <> e) -> ofep e l = [].
  Proof.
    intros. apply filter_nil_iff. intros. apply Nat.eqb_neq. auto.
  Qed.

  (** Invariant of one rank's own state. *)
  Record rinv (r : nat) (s : rstate) : Prop := {
    r_ep : (pc s = PFinished /\ ep s = length (sweeps G)) \/
           (pc s <> PFinished /\ ep s < length (sweeps G));
    r_log_nodup : NoDup (log s);
    r_log_in : forall e t, In (e, fst t, snd t) (log s) -> In t (tasks r e) /\ e <= ep s;
    r_log_done : forall e t, e < ep s -> In t (tasks r e) -> In (e, fst t, snd t) (log s);
    r_queue_nodup : NoDup (queue s);
    r_queue : forall t, In t (queue s) <->
        In t (unsolved (log s) r (ep s)) /\ miss s (fst t) (snd t) = 0;
    r_solved0 : forall t, In (ep s, fst t, snd t) (log s) -> miss s (fst t) (snd t) = 0;
    r_cnt : forall d, d < ndirs G ->
        cnt s d = countb (fun t => snd t =? d) (unsolved (log s) r (ep s));
    r_req : forall x, In x (others G r) -> (req s x = RNone <-> buf s x = []);
    r_head : forall x, In x (others G r) -> (pc s = PHead \/ pc s = PFinished) ->
        buf s x = [] -> tosend s x = [];
    r_recv : forall l, pc s = PRecv l -> incl l (others G r)
  }.

  (** Invariant of the messages from [x] to [y]: log, sweep number and [tosend] of
      the sender, sweep number and [torecv] of the receiver, batches between
      them. *)
  Record pinv (x y : nat) (lx : list (nat * pid * nat)) (ex : nat) (tx : list msg)
    (ey tr : nat) (st : list (list msg)) : Prop := {
    p_torecv : tr = length (owed k0 lx x y ey) + length (ofep ey (concat st ++ tx));
    p_past : forall e, e < ey -> owed k0 lx x y e = [];
    p_future : forall e, ey < e ->
        Permutation (owed k0 lx x y e ++ map strip (ofep e (concat st ++ tx))) (expected k0 x y e);
    p_tags : forall m, In m (concat st ++ tx) -> ey <= m_ep m <= ex;
    p_tosend : forall m, In m tx -> m_ep m = ex;
    p_sorted : epsorted (concat st ++ tx);
    p_batch : forall b, In b st -> b <> [] /\ forall m m', In m b -> In m' b -> m_ep m = m_ep m';
    p_dest : forall m, In m (concat st ++ tx) ->
        In (m_id m) (cells G) /\ rank_of (m_id m) = y /\ m_dir m < ndirs G /\
        act G (m_ep m) (m_id m) = true
  }.

  Definition stream (S : state) (x y : nat) : list (list msg) := mail S x y ++ net S x y.
  Definition flight (S : state) (x y : nat) : list msg :=
    concat (stream S x y) ++ tosend (rs S x) y.

  Definition missing_sum (S : state) (r e : nat) (c : pid) (d : nat) : nat :=
    cntm c d (owedL k0 (log (rs S r)) r e) +
    list_sum (map (fun x => cntm c d (owed k0 (log (rs S x)) x r e) +
                            cntm c d (ofep e (flight S x r))) (others G r)).

  Record inv (S : state) : Prop := {
    i_rank : forall r, r < nranks G -> rinv r (rs S r);
    i_pair : forall x y, x < nranks G -> y < nranks G -> x <> y ->
        pinv x y (log (rs S x)) (ep (rs S x)) (tosend (rs S x) y) (ep (rs S y))
          (torecv (rs S y) x) (stream S x y);
    i_miss : forall c d, In c (cells G) -> d < ndirs G ->
        act G (ep (rs S (rank_of c))) c = true ->
        miss (rs S (rank_of c)) c d = missing_sum S (rank_of c) (ep (rs S (rank_of c))) c d;
    i_order : forall e c d p f, In (e, c, d) (log (rs S (rank_of c))) -> In c (cells G) ->
        In f (faces G c) -> upwind f d = true -> face_to p f = true -> act G e p = true ->
        In (e, p, d) (log (rs S (rank_of p)))
  }.

  (** ** Facts about the lists of messages *)
  Lemma omsgs_strip : forall e d corr total fs y,
    map strip (omsgs G e d corr total fs y) = omsgs G e d 0 total fs y.
  Proof.
    intros. unfold omsgs. induction fs as [|f fs IH]; [reflexivity|].
    cbn [flat_map]. rewrite map_app, IH. f_equal. unfold omsg1.
    destruct (downwind f d); [|reflexivity].
    destruct (f_nb f); try reflexivity;
      destruct (act G e p && (rank_of p =? y)); try reflexivity; cbn;
      unfold strip; cbn; do 3 f_equal; ring.
  Qed.

  Lemma lmsgs_strip : forall e d corr total fs,
    map strip (lmsgs e d corr total fs) = lmsgs e d 0 total fs.
  Proof.
    intros. unfold lmsgs. induction fs as [|f fs IH]; [reflexivity|].
    cbn [flat_map]. rewrite map_app, IH. f_equal. unfold lmsg1.
    destruct (downwind f d); [|reflexivity].
    destruct (f_nb f); try reflexivity; cbn; unfold strip; cbn; do 3 f_equal; ring.
  Qed.

  Lemma om_k0 : forall e y t corr,
    map strip (omsgs G e (snd t) corr (total_eff_area (faces G (fst t)) (snd t)) (faces G (fst t)) y)
    = om k0 e y t.
  Proof. intros. rewrite omsgs_strip. reflexivity. Qed.

  Lemma omsgs_in : forall e d corr total fs y m, In m (omsgs G e d corr total fs y) ->
    m_ep m = e /\ m_dir m = d /\ rank_of (m_id m) = y /\ act G e (m_id m) = true /\
    exists f, In f fs /\ downwind f d = true /\
      (f_nb f = Remote (m_id m) \/ f_nb f = RemotePeriodic (m_id m)).
  Proof.
    intros e d corr total fs y m H. unfold omsgs in H. apply in_flat_map in H.
    destruct H as (f & Hf & H). unfold omsg1 in H.
    destruct (downwind f d) eqn:Hd; [|destruct H].
    destruct (f_nb f) eqn:Hn; try destruct H as [];
      destruct (act G e p && (rank_of p =? y)) eqn:Ha; try destruct H as [];
      try (destruct H as []); subst; cbn;
      apply andb_true_iff in Ha; destruct Ha as [Ha Hr]; apply Nat.eqb_eq in Hr;
      (repeat split; auto; exists f; auto).
  Qed.

  Lemma owed_tasks_nil : forall k lg x y e, unsolved lg x e = [] -> owed k lg x y e = [].
  Proof. intros. unfold owed. rewrite H. reflexivity. Qed.

  Lemma unsolved_done : forall r s e, rinv r s -> e < ep s -> unsolved (log s) r e = [].
  Proof.
    intros r s e R H. destruct (unsolved (log s) r e) as [|t l] eqn:E; [reflexivity|exfalso].
    assert (Ht : In t (unsolved (log s) r e)) by (rewrite E; left; auto).
    apply in_unsolved in Ht. destruct Ht as [Ht Hn]. apply Hn. apply (r_log_done _ _ R); auto.
  Qed.

  Lemma unsolved_future : forall r s e, rinv r s -> ep s < e -> unsolved (log s) r e = tasks r e.
  Proof.
    intros r s e R H. unfold unsolved. rewrite (filter_ext_in _ (fun _ => true)).
    - induction (tasks r e) as [|t l IH]; [reflexivity|]. cbn. f_equal. auto.
    - intros t _. apply negb_true_iff. destruct (solvedb (log s) e t) eqn:E; [|reflexivity].
      apply solvedb_spec in E. apply (r_log_in _ _ R) in E. lia.
  Qed.

  Lemma tasks_nodup : forall r e, NoDup (cells G) -> NoDup (tasks r e).
  Proof.
    intros. apply NoDup_list_prod; [|apply seq_NoDup]. apply NoDup_filter, own_cells_nodup. auto.
  Qed.

  Lemma tasks_beyond : forall r e, length (sweeps G) <= e -> tasks r e = [].
  Proof.
    intros r e H. unfold tasks. rewrite (proj2 (filter_nil_iff _ _ _)); [reflexivity|].
    intros c _. unfold act. rewrite (proj2 (nth_error_None _ _)); auto.
  Qed.

  (** Solving a task removes exactly that task from the unsolved ones. *)
  Lemma unsolved_solve : forall lg r e t, NoDup (cells G) -> In t (unsolved lg r e) ->
    Permutation (unsolved lg r e) (t :: unsolved ((e, fst t, snd t) :: lg) r e).
  Proof.
    intros lg r e t Hnd Ht. apply in_unsolved in Ht. destruct Ht as [Ht Hn].
    unfold unsolved. apply filter_remove_one; auto.
    - apply tasks_nodup; auto.
    - apply negb_true_iff. destruct (solvedb lg e t) eqn:E; [|reflexivity].
      apply solvedb_spec in E. tauto.
    - apply negb_false_iff. apply solvedb_spec. left; auto.
    - intros t' Ht' Hne. f_equal.
      destruct (solvedb lg e t') eqn:E.
      + apply solvedb_spec. apply solvedb_spec in E. right; auto.
      + destruct (solvedb ((e, fst t, snd t) :: lg) e t') eqn:E'; [|reflexivity].
        apply solvedb_spec in E'. destruct E' as [E'|E'].
        * exfalso. apply Hne. destruct t, t'; cbn in *. congruence.
        * apply solvedb_spec in E'. congruence.
  Qed.

  Lemma unsolved_solve_other : forall lg r e e' c d, e <> e' ->
    unsolved ((e, c, d) :: lg) r e' = unsolved lg r e'.
  Proof.
    intros. unfold unsolved. apply filter_ext. intros t. f_equal.
    destruct (solvedb lg e' t) eqn:E.
    - apply solvedb_spec. apply solvedb_spec in E. right; auto.
    - destruct (solvedb ((e, c, d) :: lg) e' t) eqn:E'; [|reflexivity].
      apply solvedb_spec in E'. destruct E' as [E'|E']; [congruence|].
      apply solvedb_spec in E'. congruence.
  Qed.
End Inv.
