(** Receiving a batch and starting the next sweep. *)
From Coq Require Import List Arith Bool Lia Permutation QArith Qcanon.
From Verif Require Import Sweep_Model Sweep_Spec Sweep_Util Sweep_Local Sweep_Inv Sweep_Count Sweep_Steps Sweep_Steps2.
Import ListNotations.
Local Open Scope nat_scope.

Section Steps3.
  Variable G : config.
  Hypothesis HG : consistent G.

  Notation inv := (inv G).
  Notation rinv := (rinv G).
  Notation pinv := (pinv G).
  Notation tasks := (tasks G).
  Notation unsolved := (unsolved G).

  Lemma unsolved_nil_owed : forall k lx x y e, owed G k lx x y e <> [] -> unsolved lx x e <> [].
  Proof. intros k lx x y e H X. apply H. unfold owed. rewrite X. reflexivity. Qed.

  (** The first batch on its way to a rank which still expects messages belongs
      to the rank's current sweep. *)
  Lemma head_batch_epoch : forall S x y b rest, inv S -> x < nranks G -> y < nranks G -> x <> y ->
    0 < torecv (rs S y) x -> stream S x y = b :: rest ->
    forall m, In m b -> m_ep m = ep (rs S y).
  Proof.
    intros S x y b rest I Hx Hy Hxy Htr Hst m Hm.
    pose proof (i_pair _ _ I x y Hx Hy Hxy) as P. rewrite Hst in P.
    pose proof (i_rank _ _ I x Hx) as Rx.
    set (ey := ep (rs S y)) in *. set (ex := ep (rs S x)) in *. set (tx := tosend (rs S x) y) in *.
    destruct P. cbn [concat] in *.
    assert (Hmin : In m ((b ++ concat rest) ++ tx)) by (rewrite <- app_assoc; apply in_or_app; auto).
    destruct (p_tags m Hmin) as [Hlo Hhi].
    destruct (ofep ey ((b ++ concat rest) ++ tx)) as [|m0 l0] eqn:E.
    - (* nothing of this sweep is on its way: the sender has not finished it *)
      rewrite p_torecv in Htr. cbn [length] in Htr.
      assert (Hun : unsolved (log (rs S x)) x ey <> []).
      { apply (unsolved_nil_owed k0 _ x y). intros X. rewrite X in Htr. cbn in Htr. lia. }
      destruct (Nat.lt_ge_cases ey ex) as [Hlt|Hge].
      + exfalso. apply Hun. apply (unsolved_done G x (rs S x)); auto.
      + lia.
    - assert (Hm0 : In m0 ((b ++ concat rest) ++ tx) /\ m_ep m0 = ey).
      { assert (X : In m0 (ofep ey ((b ++ concat rest) ++ tx))) by (rewrite E; left; auto).
        unfold ofep in X. apply filter_In in X. rewrite Nat.eqb_eq in X. exact X. }
      destruct Hm0 as [Hm0 He0].
      rewrite <- app_assoc in Hm0, p_sorted. apply epsorted_app in p_sorted.
      destruct p_sorted as (_ & _ & Hcross).
      apply in_app_or in Hm0. destruct Hm0 as [Hm0|Hm0].
      + destruct (p_batch b (or_introl eq_refl)) as [_ Hb]. rewrite (Hb m m0); auto.
      + pose proof (Hcross m m0 Hm Hm0). lia.
  Qed.

  (** ** Receiving *)
  Lemma inv_receive : forall S r x l b rest cur, inv S -> r < nranks G ->
    pc (rs S r) = PRecv (x :: l) -> 0 < torecv (rs S r) x ->
    mail S x r = b :: rest -> nth_error (sweeps G) (ep (rs S r)) = Some cur ->
    exists s', receive_batch G r cur x b (rs S r) = Some s' /\
      rel G cur b (set_torecv (rs S r) (upd (torecv (rs S r)) x (torecv (rs S r) x - length b))) s' /\
      tosend s' = tosend (rs S r) /\
      (forall p d, cur <= lev G p -> cntm p d b <= miss (rs S r) p d) /\
      inv (mkS (upd (rs S) r (set_pc s' (PRecv l))) (net S) (upd2 (mail S) x r rest)).
  Proof.
    intros S r x l b rest cur I Hr Hpc Htr Hmail He.
    pose proof (i_rank _ _ I r Hr) as R.
    assert (Hxo : In x (others G r)) by (apply (r_recv _ _ _ R (x :: l) Hpc); left; auto).
    assert (Hx := Hxo). apply in_others in Hx. destruct Hx as [Hx Hxr].
    assert (Hst : stream S x r = b :: (rest ++ net S x r)) by (unfold stream; rewrite Hmail; reflexivity).
    pose proof (head_batch_epoch S x r b _ I Hx Hr Hxr Htr Hst) as Hbe.
    pose proof (i_pair _ _ I x r Hx Hr Hxr) as P. rewrite Hst in P.
    set (s := rs S r) in *. set (e := ep s) in *.
    assert (Hact : forall p, act G e p = (cur <=? lev G p)) by (intros; unfold act; rewrite He; auto).
    assert (Hsplit : concat (b :: rest ++ net S x r) ++ tosend (rs S x) r =
                     b ++ (concat (rest ++ net S x r) ++ tosend (rs S x) r)).
    { cbn [concat]. rewrite <- app_assoc. reflexivity. }
    assert (Hfl : ofep e (flight S x r) = b ++ ofep e (concat (rest ++ net S x r) ++ tosend (rs S x) r)).
    { unfold flight. rewrite Hst, Hsplit, ofep_app, (ofep_all e b) by auto. reflexivity. }
    assert (Hlen : length b <= torecv s x).
    { rewrite (p_torecv _ _ _ _ _ _ _ _ _ P), Hsplit, ofep_app, (ofep_all e b), app_length by auto. lia. }
    assert (Hdest : forall m, In m b -> In (m_id m) (cells G) /\ rank_of (m_id m) = r /\ m_dir m < ndirs G /\
        act G e (m_id m) = true).
    { intros m Hm. rewrite <- (Hbe m Hm). apply (p_dest _ _ _ _ _ _ _ _ _ P).
      rewrite Hsplit. apply in_or_app; auto. }
    assert (Hzero : forall p d', (rank_of p <> r \/ ~ In p (cells G) \/ ~ d' < ndirs G) -> cntm p d' b = 0).
    { intros p d' Hn. unfold cntm. apply countb_zero. intros m Hm. unfold isfor.
      destruct (Hdest m Hm) as (H1 & H2 & H3 & _).
      destruct (pid_eqb_spec (m_id m) p) as [E1|]; [|reflexivity].
      destruct (Nat.eqb_spec (m_dir m) d') as [E2|]; [|reflexivity].
      exfalso. rewrite E1 in H1, H2. rewrite E2 in H3. destruct Hn as [Hn|[Hn|Hn]]; auto. }
    unfold receive_batch. fold s. rewrite (proj2 (Nat.leb_le _ _) Hlen).
    set (s1 := set_torecv s _).
    assert (Htake : takeable G r cur b s1).
    { split.
      - intros m Hm. apply own_spec. destruct (Hdest m Hm) as (H1 & H2 & _). auto.
      - intros p d Hp. change (miss s1 p d) with (miss s p d).
        destruct (Nat.lt_ge_cases d (ndirs G)) as [Hd|Hd]; [|rewrite Hzero; [lia|right; right; lia]].
        destruct (Nat.eq_dec (rank_of p) r) as [Hpr|Hpr]; [|rewrite Hzero by auto; lia].
        destruct (existsb (pid_eqb p) (cells G)) eqn:Ex.
        2:{ rewrite Hzero; [lia|]. right; left. intros X. apply existsb_pid in X. congruence. }
        apply existsb_pid in Ex.
        pose proof (i_miss _ _ I p d Ex Hd) as M. rewrite Hpr in M. fold s in M. fold e in M.
        rewrite M by (rewrite Hact; apply Nat.leb_le; auto). unfold missing_sum.
        pose proof (list_sum_in _ (fun x => cntm p d (owed G k0 (log (rs S x)) x r e) +
             cntm p d (ofep e (flight S x r))) x _ Hxo) as X. cbn beta in X.
        rewrite Hfl, cntm_app in X. lia. }
    destruct (recv_loop_rel G r cur b s1 Htake) as (s' & Erun & L & T).
    exists s'. split; [exact Erun|]. split; [exact L|]. split; [exact T|].
    split; [exact (proj2 Htake)|].
    set (S' := mkS _ _ _).
    assert (Hother : forall z, z <> r -> rs S' z = rs S z).
    { intros. unfold S'. cbn [rs]. apply upd_other; auto. }
    assert (Hsame : rs S' r = set_pc s' (PRecv l)) by (unfold S'; cbn [rs]; apply upd_same).
    assert (Elog : forall z, log (rs S' z) = log (rs S z)).
    { intros z. destruct (Nat.eq_dec z r) as [->|]; [|rewrite Hother; auto].
      rewrite Hsame. cbn. rewrite (rel_log _ _ _ _ _ L). reflexivity. }
    assert (Eep : forall z, ep (rs S' z) = ep (rs S z)).
    { intros z. destruct (Nat.eq_dec z r) as [->|]; [|rewrite Hother; auto].
      rewrite Hsame. cbn. rewrite (rel_ep _ _ _ _ _ L). reflexivity. }
    assert (Ets : forall z, tosend (rs S' z) = tosend (rs S z)).
    { intros z. destruct (Nat.eq_dec z r) as [->|]; [|rewrite Hother; auto].
      rewrite Hsame. cbn. rewrite T. reflexivity. }
    assert (Hstr : forall z y, (z, y) <> (x, r) -> stream S' z y = stream S z y).
    { intros z y Hzy. unfold stream, S'. cbn [mail net]. rewrite upd2_eq.
      destruct (Nat.eqb_spec z x), (Nat.eqb_spec y r); cbn [andb]; auto. congruence. }
    assert (Hstr' : stream S' x r = rest ++ net S x r).
    { unfold stream, S'. cbn [mail net]. rewrite upd2_eq, !Nat.eqb_refl. reflexivity. }
    assert (Hmiss : forall p d', miss (rs S' r) p d' + (if cur <=? lev G p then cntm p d' b else 0) = miss s p d').
    { intros. rewrite Hsame. cbn [miss set_pc]. apply (rel_miss _ _ _ _ _ L). }
    constructor.
    - intros z Hz. destruct (Nat.eq_dec z r) as [->|]; [|rewrite Hother by auto; apply (i_rank _ _ I); auto].
      constructor.
      + rewrite Eep. fold s. fold e. right. rewrite Hsame. cbn. split; [discriminate|].
        destruct (r_ep _ _ _ R) as [[X _]|[_ X]]; [congruence|auto].
      + rewrite Elog. apply (r_log_nodup _ _ _ R).
      + rewrite Elog, Eep. apply (r_log_in _ _ _ R).
      + rewrite Elog, Eep. apply (r_log_done _ _ _ R).
      + rewrite Hsame. cbn [queue set_pc]. apply (rel_nodup _ _ _ _ _ L).
        * apply (r_queue_nodup _ _ _ R).
        * intros t Ht. apply (r_queue _ _ _ R) in Ht. apply Ht.
      + rewrite Elog, Eep. fold s. fold e. intros t.
        assert (Q : In t (queue (rs S' r)) <-> In t (queue s) \/
          (cur <= lev G (fst t) /\ 0 < miss s (fst t) (snd t) /\ miss (rs S' r) (fst t) (snd t) = 0)).
        { rewrite Hsame. cbn [queue set_pc miss]. apply (rel_queue _ _ _ _ _ L). }
        rewrite Q, (r_queue _ _ _ R t). fold e. specialize (Hmiss (fst t) (snd t)). split.
        * intros [[H1 H2]|(H1 & H2 & H3)]; [split; [auto|lia]|]. split; [|auto].
          rewrite (proj2 (Nat.leb_le _ _) H1) in Hmiss.
          destruct (Nat.lt_ge_cases (snd t) (ndirs G)) as [Hd|Hd].
          2:{ rewrite Hzero in Hmiss; [lia|right; right; lia]. }
          destruct (Nat.eq_dec (rank_of (fst t)) r) as [Hpr|Hpr].
          2:{ rewrite Hzero in Hmiss by auto. lia. }
          destruct (existsb (pid_eqb (fst t)) (cells G)) eqn:Ex.
          2:{ rewrite Hzero in Hmiss; [lia|]. right; left. intros X. apply existsb_pid in X. congruence. }
          apply existsb_pid in Ex. apply in_unsolved. split.
          -- apply in_tasks. rewrite Hact. repeat split; auto. apply Nat.leb_le; auto.
          -- intros X. pose proof (r_solved0 _ _ _ R t X). lia.
        * intros [H1 H2]. destruct (Nat.eq_dec (miss s (fst t) (snd t)) 0) as [Hz'|Hz']; [left; auto|right].
          split; [|split; [lia|auto]]. apply in_unsolved in H1. destruct H1 as [H1 _].
          apply in_tasks in H1. destruct H1 as (_ & _ & H1 & _). rewrite Hact in H1. apply Nat.leb_le; auto.
      + rewrite Elog, Eep. intros t Ht. pose proof (r_solved0 _ _ _ R t Ht). specialize (Hmiss (fst t) (snd t)). lia.
      + rewrite Elog, Eep. intros d Hd. rewrite Hsame. cbn [cnt set_pc]. rewrite (rel_cnt _ _ _ _ _ L).
        apply (r_cnt _ _ _ R d Hd).
      + intros y Hy. rewrite Hsame. cbn [req buf set_pc].
        rewrite (rel_req _ _ _ _ _ L), (rel_buf _ _ _ _ _ L). apply (r_req _ _ _ R); auto.
      + intros y Hy X. rewrite Hsame in X. cbn in X. destruct X; discriminate.
      + intros l' X. rewrite Hsame in X. cbn in X. injection X as <-.
        intros z' Hz'. apply (r_recv _ _ _ R (x :: l) Hpc). right; auto.
    - intros z y Hz Hy Hzy. rewrite !Eep, !Elog, !Ets.
      pose proof (i_pair _ _ I z y Hz Hy Hzy) as P'.
      destruct (Nat.eq_dec y r) as [->|Hyr].
      + assert (Etr : forall w, torecv (rs S' r) w = upd (torecv s) x (torecv s x - length b) w).
        { intros. rewrite Hsame. cbn [torecv set_pc]. rewrite (rel_torecv _ _ _ _ _ L). reflexivity. }
        rewrite Etr. destruct (Nat.eq_dec z x) as [->|Hzx].
        * rewrite upd_same, Hstr'. clear P'. fold s e. destruct P. rewrite Hsplit in p_torecv, p_tags, p_sorted, p_dest.
          constructor; auto.
          -- rewrite p_torecv, ofep_app, (ofep_all e b), app_length by auto. lia.
          -- intros e' He'. specialize (p_future e' He'). rewrite Hsplit, ofep_app, (ofep_none e' b) in p_future; [exact p_future|].
             intros m Hm. rewrite (Hbe m Hm). lia.
          -- intros m Hm. apply p_tags. apply in_or_app; auto.
          -- apply epsorted_app in p_sorted. tauto.
          -- intros b' Hb'. apply p_batch. right; auto.
          -- intros m Hm. apply p_dest. apply in_or_app; auto.
        * rewrite upd_other by auto. rewrite Hstr by congruence. exact P'.
      + rewrite (Hother y) by auto. rewrite Hstr by congruence. exact P'.
    - intros c d Hc Hd. rewrite Eep. intros Ha.
      pose proof (i_miss _ _ I c d Hc Hd Ha) as M.
      destruct (Nat.eq_dec (rank_of c) r) as [Hcr|Hcr].
      + rewrite Hcr in *. fold s in M, Ha. fold s. fold e in M, Ha. fold e.
        specialize (Hmiss c d). rewrite Hact in Ha. rewrite Ha in Hmiss.
        unfold missing_sum in *. rewrite Elog.
        rewrite (list_sum_change _ (fun x => cntm c d (owed G k0 (log (rs S x)) x r e) + cntm c d (ofep e (flight S x r)))
           (fun x => cntm c d (owed G k0 (log (rs S' x)) x r e) + cntm c d (ofep e (flight S' x r)))
           x (cntm c d b)) in M; [fold s in M; fold s; lia|apply others_nodup|auto| |].
        * rewrite Elog, Hfl, cntm_app. unfold flight. rewrite Hstr', Ets. lia.
        * intros z Hz Hzx. unfold flight. rewrite Elog, Ets, Hstr by congruence. reflexivity.
      + rewrite Hother by auto. rewrite M. unfold missing_sum. rewrite Elog. f_equal.
        apply list_sum_map_ext. intros z Hz. unfold flight. rewrite Elog, Ets, Hstr by congruence. reflexivity.
    - intros e' c d p f. rewrite !Elog. apply (i_order _ _ I).
  Qed.

  (** ** Starting a sweep *)
  Lemma countb_dir : forall r e d, d < ndirs G ->
    countb (fun t => snd t =? d) (tasks r e) = length (filter (act G e) (own_cells G r)).
  Proof.
    intros r e d Hd. unfold tasks. induction (filter (act G e) (own_cells G r)) as [|c l IH]; [reflexivity|].
    cbn [list_prod]. rewrite countb_app, IH. cbn [length].
    assert (countb (fun t : pid * nat => snd t =? d) (map (fun y => (c, y)) (seq 0 (ndirs G))) = 1); [|lia].
    assert (X : forall l, countb (fun t : pid * nat => snd t =? d) (map (fun y => (c, y)) l) =
                list_sum (map (fun d' => if d' =? d then 1 else 0) l)).
    { induction l0 as [|a l0 IH0]; [reflexivity|]. cbn [map]. rewrite countb_cons, list_sum_cons, IH0. reflexivity. }
    rewrite X. apply sum_dirs. auto.
  Qed.

  Lemma active_cells_act : forall r e cur, nth_error (sweeps G) e = Some cur ->
    active_cells G r cur = filter (act G e) (own_cells G r).
  Proof.
    intros. unfold active_cells. apply filter_ext. intros c. unfold act. rewrite H. reflexivity.
  Qed.

  (** What a rank looks like at the start of a sweep. *)
  Record started (r e : nat) (s s' : rstate) : Prop := {
    st_ep : ep s' = e;
    st_pc : (pc s' = PFinished /\ length (sweeps G) <= e) \/ (pc s' = PHead /\ e < length (sweeps G));
    st_log : log s' = log s;
    st_tosend : tosend s' = tosend s;
    st_buf : buf s' = buf s;
    st_req : req s' = req s;
    st_inc : inc s' = inc s;
    st_out : out s' = out s;
    st_per : per s' = per s;
    st_chem : chem s' = chem s;
    st_torecv : forall x, In x (others G r) -> e < length (sweeps G) ->
        torecv s' x = length (expected G k0 x r e);
    st_torecv' : length (sweeps G) <= e -> torecv s' = torecv s;
    st_miss : forall c d, In c (own_cells G r) -> act G e c = true -> d < ndirs G ->
        miss s' c d = cntm c d (flat_map (lm G k0 e) (tasks r e)) +
          list_sum (map (fun x => cntm c d (expected G k0 x r e)) (others G r));
    st_cnt : forall d, e < length (sweeps G) -> d < ndirs G ->
        cnt s' d = countb (fun t => snd t =? d) (tasks r e);
    st_cnt' : length (sweeps G) <= e -> cnt s' = cnt s;
    st_queue : e < length (sweeps G) -> NoDup (queue s') /\
        forall t, In t (queue s') <-> In t (tasks r e) /\ miss s' (fst t) (snd t) = 0;
    st_queue' : length (sweeps G) <= e -> queue s' = queue s
  }.

  Lemma start_sweep_spec : forall r e s, exists s', start_sweep G r e s = Some s' /\ started r e s s'.
  Proof.
    intros r e s. unfold start_sweep.
    destruct (nth_error (sweeps G) e) as [cur|] eqn:E.
    - rewrite (init_faces_ok G HG r e cur E).
      assert (Hlt : e < length (sweeps G)) by (apply nth_error_Some; congruence).
      eexists; split; [reflexivity|].
      rewrite (active_cells_act r e cur E). set (acts := filter (act G e) (own_cells G r)).
      assert (Hin : forall c, In c acts <-> In c (cells G) /\ rank_of c = r /\ act G e c = true).
      { intros c. unfold acts. rewrite filter_In, in_own_cells. tauto. }
      assert (Hnd : NoDup acts) by (apply NoDup_filter, own_cells_nodup, (c_nodup _ HG)).
      constructor; cbn [ep pc log tosend buf req inc out per chem torecv miss cnt queue]; auto; try lia.
      + intros x Hx _. rewrite (proj2 (is_remote_spec G r x) Hx).
        apply (torecv_init_spec G HG r x e cur E). apply in_others in Hx. tauto.
      + intros c d Hc Ha Hd. apply in_own_cells in Hc. destruct Hc as [Hc Hr].
        rewrite (proj2 (existsb_pid c acts)) by (apply Hin; auto).
        subst r. apply (missing_init_spec G HG c d e cur); auto.
      + intros d _ Hd. rewrite (proj2 (Nat.ltb_lt _ _) Hd), (countb_dir r e d Hd). reflexivity.
      + intros _. set (miss' := fun (c : pid) (d : nat) => if existsb (pid_eqb c) acts then missing_init G r cur c d else miss s c d).
        assert (Hfm : forall ds t, In t (flat_map (fun d => map (fun c => (c, d)) (filter (fun c => miss' c d =? 0) acts)) ds)
                  <-> In (snd t) ds /\ In (fst t) acts /\ miss' (fst t) (snd t) = 0).
        { intros ds t. rewrite in_flat_map. split.
          - intros (d & Hd & Ht). apply in_map_iff in Ht. destruct Ht as (c & <- & Hc). cbn.
            apply filter_In in Hc. rewrite Nat.eqb_eq in Hc. tauto.
          - intros (H1 & H2 & H3). exists (snd t). split; auto. apply in_map_iff. exists (fst t).
            split; [destruct t; auto|]. apply filter_In. rewrite Nat.eqb_eq. auto. }
        split.
        * assert (Hds : NoDup (seq 0 (ndirs G))) by apply seq_NoDup.
          induction (seq 0 (ndirs G)) as [|d ds IH]; [constructor|]. inversion Hds; subst.
          cbn [flat_map].
          assert (Hmap : NoDup (map (fun c : pid => (c, d)) (filter (fun c => miss' c d =? 0) acts))).
          { apply FinFun.Injective_map_NoDup; [intros a b X; congruence|]. apply NoDup_filter; auto. }
          assert (Hdis : forall t, In t (map (fun c : pid => (c, d)) (filter (fun c => miss' c d =? 0) acts)) ->
            ~ In t (flat_map (fun d => map (fun c => (c, d)) (filter (fun c => miss' c d =? 0) acts)) ds)).
          { intros t Ht Ht'. apply in_map_iff in Ht. destruct Ht as (c & <- & _). apply Hfm in Ht'. cbn in Ht'. tauto. }
          apply NoDup_app_intro; [exact Hmap|exact (IH H2)|exact Hdis].
        * intros t. etransitivity; [apply (Hfm (seq 0 (ndirs G)) t)|]. fold miss'. rewrite in_tasks, in_seq, Hin. intuition lia.
    - apply nth_error_None in E. eexists; split; [reflexivity|].
      constructor; cbn; auto; try lia.
      intros c d _ Ha _. unfold act in Ha. rewrite (proj2 (nth_error_None _ _) E) in Ha. discriminate.
  Qed.
  Lemma list_sum_zero_in : forall A (f : A -> nat) l a, list_sum (map f l) = 0 -> In a l -> f a = 0.
  Proof. intros A f l a H Ha. apply (proj1 (list_sum_map_zero A f l) H a Ha). Qed.

  Lemma loop_cond_false : forall r s, loop_cond G r s = false ->
    (forall d, d < ndirs G -> cnt s d = 0) /\ (forall x, In x (others G r) -> buf s x = [] /\ torecv s x = 0).
  Proof.
    intros r s H. unfold loop_cond in H. rewrite !orb_false_iff, !Nat.ltb_nlt in H.
    destruct H as [[H1 H2] H3]. split.
    - intros d Hd. apply (list_sum_zero_in _ (cnt s) (seq 0 (ndirs G))); [unfold total_cnt in H1; lia|apply in_seq; lia].
    - intros x Hx. split.
      + assert (length (buf s x) = 0) by (apply (list_sum_zero_in _ (fun x => length (buf s x)) (others G r)); [unfold total_buf in H2; lia|auto]).
        destruct (buf s x); [auto|discriminate].
      + apply (list_sum_zero_in _ (torecv s) (others G r)); [unfold total_torecv in H3; lia|auto].
  Qed.

  Lemma all_dirs_solved : forall r s, rinv r s -> (forall d, d < ndirs G -> cnt s d = 0) ->
    unsolved (log s) r (ep s) = [].
  Proof.
    intros r s R H. destruct (unsolved (log s) r (ep s)) as [|t l] eqn:E; [reflexivity|exfalso].
    assert (Ht : In t (unsolved (log s) r (ep s))) by (rewrite E; left; auto).
    assert (Hd : snd t < ndirs G).
    { apply in_unsolved in Ht. destruct Ht as [Ht _]. apply in_tasks in Ht. tauto. }
    pose proof (r_cnt _ _ _ R (snd t) Hd) as C. rewrite (H _ Hd) in C. symmetry in C.
    rewrite countb_zero in C. specialize (C t Ht). cbn in C. rewrite Nat.eqb_refl in C. discriminate.
  Qed.

  Lemma inv_next : forall S r, inv S -> r < nranks G -> pc (rs S r) = PHead ->
    loop_cond G r (rs S r) = false ->
    exists s', start_sweep G r (Datatypes.S (ep (rs S r))) (update_chemistry G r (rs S r)) = Some s' /\
      started r (Datatypes.S (ep (rs S r))) (update_chemistry G r (rs S r)) s' /\
      inv (set_rs S r s').
  Proof.
    intros S r I Hr Hpc Hlc.
    pose proof (i_rank _ _ I r Hr) as R.
    destruct (loop_cond_false _ _ Hlc) as [Hc0 Hx0].
    set (s := rs S r) in *. set (e := ep s) in *. set (su := update_chemistry G r s).
    assert (Hsu : ep su = ep s /\ log su = log s /\ tosend su = tosend s /\ buf su = buf s /\ req su = req s /\
                  torecv su = torecv s /\ cnt su = cnt s /\ queue su = queue s).
    { unfold su, update_chemistry. destruct (nth_error (sweeps G) (ep s)); cbn; repeat split; auto. }
    destruct Hsu as (U1 & U2 & U3 & U4 & U5 & U6 & U7 & U8).
    destruct (start_sweep_spec r (Datatypes.S e) su) as (s' & Es & St).
    exists s'. split; [exact Es|]. split; [exact St|].
    pose proof (all_dirs_solved r s R Hc0) as Hdone. fold e in Hdone.
    assert (Hep : e < length (sweeps G)).
    { destruct (r_ep _ _ _ R) as [[X _]|[_ X]]; [congruence|auto]. }
    assert (Hlog' : log s' = log s) by (rewrite (st_log _ _ _ _ St); auto).
    assert (Hts : forall y, In y (others G r) -> tosend s' y = []).
    { intros y Hy. rewrite (st_tosend _ _ _ _ St), U3. apply (r_head _ _ _ R); auto. apply Hx0; auto. }
    assert (Hts0 : forall y, In y (others G r) -> tosend s y = []).
    { intros y Hy. apply (r_head _ _ _ R); auto. apply Hx0; auto. }
    assert (Hun : unsolved (log s) r (Datatypes.S e) = tasks r (Datatypes.S e)).
    { apply (unsolved_future G r s); auto. }
    assert (Hpast : forall x, In x (others G r) ->
       owed G k0 (log (rs S x)) x r e = [] /\ ofep e (flight S x r) = []).
    { intros x Hx. assert (Hx' := Hx). apply in_others in Hx'. destruct Hx' as [Hxn Hxr].
      pose proof (p_torecv _ _ _ _ _ _ _ _ _ (i_pair _ _ I x r Hxn Hr Hxr)) as PT.
      fold s in PT. fold e in PT. rewrite (proj2 (Hx0 x Hx)) in PT. unfold flight.
      split; apply length_zero_iff_nil; lia. }
    set (S' := set_rs S r s').
    assert (Hother : forall z, z <> r -> rs S' z = rs S z).
    { intros. unfold S'. cbn [rs set_rs]. apply upd_other; auto. }
    assert (Hsame : rs S' r = s') by (unfold S'; cbn [rs set_rs]; apply upd_same).
    assert (Elog : forall z, log (rs S' z) = log (rs S z)).
    { intros z. destruct (Nat.eq_dec z r) as [->|]; [rewrite Hsame; auto|rewrite Hother; auto]. }
    assert (Hstr : forall x y, stream S' x y = stream S x y) by reflexivity.
    assert (Hep' : ep s' = Datatypes.S e) by apply (st_ep _ _ _ _ St).
    assert (Hnolog : forall t, ~ In (Datatypes.S e, fst t, snd t) (log s)).
    { intros t X. apply (r_log_in _ _ _ R) in X. fold e in X. lia. }
    constructor.
    - intros z Hz. destruct (Nat.eq_dec z r) as [->|]; [|rewrite Hother by auto; apply (i_rank _ _ I); auto].
      rewrite Hsame. constructor; rewrite ?Hep', ?Hlog'.
      + destruct (st_pc _ _ _ _ St) as [[X1 X2]|[X1 X2]]; [left; split; [auto|lia]|right; split; [congruence|auto]].
      + apply (r_log_nodup _ _ _ R).
      + intros e' t Ht. apply (r_log_in _ _ _ R) in Ht. fold e in Ht. split; [tauto|lia].
      + intros e' t Hlt Ht. destruct (Nat.eq_dec e' e) as [->|].
        * destruct (solvedb (log s) e t) eqn:E; [apply solvedb_spec; auto|exfalso].
          assert (X : In t (unsolved (log s) r e)).
          { apply in_unsolved. split; auto. intros X. apply solvedb_spec in X. congruence. }
          rewrite Hdone in X. destruct X.
        * apply (r_log_done _ _ _ R); auto. fold e. lia.
      + destruct (Nat.lt_ge_cases (Datatypes.S e) (length (sweeps G))) as [H|H].
        * apply (st_queue _ _ _ _ St H).
        * rewrite (st_queue' _ _ _ _ St H), U8. apply (r_queue_nodup _ _ _ R).
      + intros t. rewrite Hun.
        destruct (Nat.lt_ge_cases (Datatypes.S e) (length (sweeps G))) as [H|H].
        * apply (st_queue _ _ _ _ St H).
        * rewrite (st_queue' _ _ _ _ St H), U8, (r_queue _ _ _ R t). fold e. rewrite Hdone, (tasks_beyond G r _ H).
          split; intros [[] _].
      + intros t X. exfalso. apply (Hnolog t X).
      + intros d Hd. rewrite Hun.
        destruct (Nat.lt_ge_cases (Datatypes.S e) (length (sweeps G))) as [H|H].
        * apply (st_cnt _ _ _ _ St d H Hd).
        * rewrite (st_cnt' _ _ _ _ St H), U7, (tasks_beyond G r _ H), Hc0 by auto. reflexivity.
      + intros x Hx. rewrite (st_req _ _ _ _ St), (st_buf _ _ _ _ St), U4, U5. apply (r_req _ _ _ R); auto.
      + intros x Hx _ _. auto.
      + intros l X. destruct (st_pc _ _ _ _ St) as [[X1 _]|[X1 _]]; congruence.
    - intros x y Hx Hy Hxy. rewrite !Elog, Hstr.
      pose proof (i_pair _ _ I x y Hx Hy Hxy) as P.
      destruct (Nat.eq_dec y r) as [->|Hyr].
      + assert (Hxo : In x (others G r)) by (apply in_others; auto).
        rewrite Hsame, (Hother x) by auto. rewrite Hep'.
        destruct (Hpast x Hxo) as [Ho Hf]. unfold flight in Hf. fold s in P. fold e in P.
        destruct P. constructor; auto.
        * destruct (Nat.lt_ge_cases (Datatypes.S e) (length (sweeps G))) as [H|H].
          -- rewrite (st_torecv _ _ _ _ St x Hxo H).
             rewrite <- (Permutation_length (p_future (Datatypes.S e) (Nat.lt_succ_diag_r e))).
             rewrite app_length, map_length. reflexivity.
          -- rewrite (st_torecv' _ _ _ _ St H), U6, (proj2 (Hx0 x Hxo)).
             pose proof (p_future (Datatypes.S e) (Nat.lt_succ_diag_r e)) as PF.
             unfold expected in PF. rewrite (tasks_beyond G x _ H) in PF. cbn [flat_map] in PF.
             apply Permutation_length in PF. rewrite app_length, map_length in PF. cbn in PF. lia.
        * intros e' He'. destruct (Nat.eq_dec e' e) as [->|]; [auto|]. apply p_past. lia.
        * intros e' He'. apply p_future. lia.
        * intros m Hm. specialize (p_tags m Hm). split; [|lia].
          destruct (Nat.eq_dec (m_ep m) e) as [Hme|]; [exfalso|lia].
          assert (X : In m (ofep e (concat (stream S x r) ++ tosend (rs S x) r))).
          { unfold ofep. apply filter_In. rewrite Nat.eqb_eq. auto. }
          rewrite Hf in X. destruct X.
      + rewrite (Hother y) by auto.
        destruct (Nat.eq_dec x r) as [->|Hxr]; [|rewrite Hother by auto; auto].
        assert (Hyo : In y (others G r)) by (apply in_others; auto).
        rewrite Hsame, Hep', (Hts y Hyo). fold s in P. rewrite (Hts0 y Hyo) in P. fold s e in P. fold s.
        destruct P. constructor; auto.
        * intros m Hm. specialize (p_tags m Hm). lia.
        * intros m [].
    - intros c d Hc Hd. destruct (Nat.eq_dec (rank_of c) r) as [Hcr|Hcr].
      + rewrite Hcr, Hsame, Hep'. intros Ha.
        rewrite (st_miss _ _ _ _ St c d) by (auto; apply in_own_cells; auto).
        unfold missing_sum. rewrite Elog. fold s. unfold owedL. rewrite Hun. f_equal.
        apply list_sum_map_ext. intros x Hx. assert (Hx' := Hx). apply in_others in Hx'.
        rewrite Elog. unfold flight. rewrite Hstr, Hother by tauto.
        destruct Hx' as [Hxn Hxr].
        pose proof (p_future _ _ _ _ _ _ _ _ _ (i_pair _ _ I x r Hxn Hr Hxr) (Datatypes.S e)) as PF.
        fold s in PF. fold e in PF. specialize (PF (Nat.lt_succ_diag_r e)).
        unfold cntm at 1. rewrite <- (countb_perm _ _ _ _ PF), countb_app.
        fold (cntm c d (map strip (ofep (Datatypes.S e) (concat (stream S x r) ++ tosend (rs S x) r)))).
        rewrite cntm_strip. reflexivity.
      + rewrite Hother by auto. intros Ha. rewrite (i_miss _ _ I c d Hc Hd Ha). unfold missing_sum.
        rewrite Elog. f_equal. apply list_sum_map_ext. intros x Hx. rewrite Elog. unfold flight. rewrite Hstr.
        destruct (Nat.eq_dec x r) as [->|Hxr]; [|rewrite Hother by auto; reflexivity].
        assert (Hyo : In (rank_of c) (others G r)) by (apply in_others; split; [apply (c_rank _ HG)|]; auto).
        rewrite Hsame, (Hts _ Hyo). fold s. rewrite (Hts0 _ Hyo). reflexivity.
    - intros e' c d p f. rewrite !Elog. apply (i_order _ _ I).
  Qed.
End Steps3.
