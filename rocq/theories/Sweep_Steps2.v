(** Solving a task, receiving a batch and starting a sweep preserve the
    invariant and do not panic. *)
From Coq Require Import List Arith Bool Lia Permutation QArith Qcanon.
From Verif Require Import Sweep_Model Sweep_Spec Sweep_Util Sweep_Local Sweep_Inv Sweep_Count Sweep_Steps.
Import ListNotations.
Local Open Scope nat_scope.

Section Steps2.
  Variable G : config.
  Hypothesis HG : consistent G.

  Notation inv := (inv G).
  Notation rinv := (rinv G).
  Notation pinv := (pinv G).
  Notation tasks := (tasks G).
  Notation unsolved := (unsolved G).

  Lemma face_to_cell : forall c f p, In c (cells G) -> In f (faces G c) -> face_to p f = true ->
    In p (cells G).
  Proof.
    intros c f p Hc Hf Ht. unfold face_to in Ht.
    destruct (f_nb f) as [q|q| |q|q] eqn:E; try discriminate;
      destruct (pid_eqb_spec q p); try discriminate; subst.
    - apply (c_local _ HG c f p); auto.
    - apply (c_remote _ HG c f p); auto.
  Qed.

  Lemma lmsgs_in : forall e d corr total fs m, In m (lmsgs e d corr total fs) ->
    m_ep m = e /\ m_dir m = d /\
    exists f, In f fs /\ downwind f d = true /\
      (f_nb f = Local (m_id m) \/ f_nb f = LocalPeriodic (m_id m)).
  Proof.
    intros e d corr total fs m H. unfold lmsgs in H. apply in_flat_map in H.
    destruct H as (f & Hf & H). unfold lmsg1 in H.
    destruct (downwind f d) eqn:Hd; [|destruct H].
    destruct (f_nb f) eqn:Hn; try destruct H as []; subst; cbn; try contradiction;
      (repeat split; auto; exists f; auto).
  Qed.

  (** A cell which misses nothing has all its active upwind neighbours solved. *)
  Lemma upwind_solved : forall S c d p f, inv S -> In c (cells G) -> d < ndirs G ->
    act G (ep (rs S (rank_of c))) c = true -> miss (rs S (rank_of c)) c d = 0 ->
    In f (faces G c) -> upwind f d = true -> face_to p f = true ->
    act G (ep (rs S (rank_of c))) p = true ->
    In (ep (rs S (rank_of c)), p, d) (log (rs S (rank_of p))).
  Proof.
    intros S c d p f I Hc Hd Ha Hm Hf Hu Ht Hap.
    set (e := ep (rs S (rank_of c))) in *.
    pose proof (face_to_cell c f p Hc Hf Ht) as Hp.
    destruct (solvedb (log (rs S (rank_of p))) e (p, d)) eqn:E; [apply solvedb_spec in E; exact E|].
    exfalso.
    assert (Hun : In (p, d) (unsolved (log (rs S (rank_of p))) (rank_of p) e)).
    { apply in_unsolved. split; [apply in_tasks; cbn; auto|].
      intros X. change (In (e, fst (p, d), snd (p, d)) (log (rs S (rank_of p)))) in X.
      apply solvedb_spec in X. congruence. }
    assert (HN : 1 <= ND G p c d).
    { unfold ND. rewrite <- (c_sym _ HG c p d); auto. apply (countb_pos _ _ f); auto.
      rewrite Hu, Ht. reflexivity. }
    rewrite (i_miss _ _ I c d Hc Hd Ha) in Hm. fold e in Hm. unfold missing_sum in Hm.
    destruct (Nat.eq_dec (rank_of p) (rank_of c)) as [Hr|Hr].
    - assert (1 <= cntm c d (owedL G k0 (log (rs S (rank_of c))) (rank_of c) e)); [|lia].
      unfold owedL, cntm. rewrite countb_flat_map. rewrite Hr in Hun.
      etransitivity; [|apply (list_sum_in _ (fun t => countb (isfor c d) (lm G k0 e t)) _ _ Hun)].
      unfold lm. cbn [fst snd]. fold (cntm c d (lmsgs e d (k0 e p d) (total_eff_area (faces G p) d) (faces G p))).
      rewrite (cntm_lmsgs G HG) by auto. rewrite Nat.eqb_refl. auto.
    - assert (Hz : list_sum (map (fun x => cntm c d (owed G k0 (log (rs S x)) x (rank_of c) e) +
          cntm c d (ofep e (flight S x (rank_of c)))) (others G (rank_of c))) = 0) by lia.
      rewrite list_sum_map_zero in Hz.
      specialize (Hz (rank_of p)).
      assert (X : In (rank_of p) (others G (rank_of c))) by (apply in_others; split; [apply (c_rank _ HG)|]; auto).
      specialize (Hz X).
      assert (1 <= cntm c d (owed G k0 (log (rs S (rank_of p))) (rank_of p) (rank_of c) e)); [|lia].
      unfold owed, cntm. rewrite countb_flat_map.
      etransitivity; [|apply (list_sum_in _ (fun t => countb (isfor c d) (om G k0 e (rank_of c) t)) _ _ Hun)].
      unfold om. cbn [fst snd].
      fold (cntm c d (omsgs G e d (k0 e p d) (total_eff_area (faces G p) d) (faces G p) (rank_of c))).
      rewrite (cntm_omsgs G HG) by auto. rewrite Nat.eqb_refl. auto.
  Qed.

  (** ** Effect of solving on the messages to another rank *)
  Lemma pinv_solve : forall x y lx ex tx ey tr st t corr,
    pinv x y lx ex tx ey tr st -> x <> y -> In t (unsolved lx x ex) ->
    pinv x y ((ex, fst t, snd t) :: lx) ex
      (tx ++ omsgs G ex (snd t) corr (total_eff_area (faces G (fst t)) (snd t)) (faces G (fst t)) y)
      ey tr st.
  Proof.
    intros x y lx ex tx ey tr st t corr P Hxy Ht.
    set (O := omsgs _ _ _ _ _ _ _).
    pose proof (unsolved_solve G lx x ex t (c_nodup _ HG) Ht) as HP.
    assert (HO : forall m, In m O -> m_ep m = ex) by (intros m Hm; apply omsgs_in in Hm; tauto).
    assert (HOs : map strip O = om G k0 ex y t) by apply om_k0.
    assert (Howed : Permutation (owed G k0 lx x y ex)
                      (om G k0 ex y t ++ owed G k0 ((ex, fst t, snd t) :: lx) x y ex)).
    { unfold owed. rewrite (flat_map_perm _ _ (om G k0 ex y) _ _ HP). reflexivity. }
    assert (Hother : forall e, e <> ex -> owed G k0 ((ex, fst t, snd t) :: lx) x y e = owed G k0 lx x y e).
    { intros. unfold owed. rewrite unsolved_solve_other; auto. }
    assert (Htask : In (fst t) (cells G) /\ rank_of (fst t) = x /\ snd t < ndirs G).
    { apply in_unsolved in Ht. destruct Ht as [Ht _]. apply in_tasks in Ht. tauto. }
    assert (Hnil : ex < ey -> O = []).
    { intros Hlt. pose proof (p_past _ _ _ _ _ _ _ _ _ P ex Hlt) as Hz.
      rewrite Hz in Howed. apply Permutation_nil in Howed. apply app_eq_nil in Howed.
      rewrite <- HOs in Howed. destruct O; [reflexivity|destruct Howed; discriminate]. }
    destruct P. constructor.
    - rewrite app_assoc, ofep_app, app_length. destruct (Nat.eq_dec ey ex) as [->|Hne].
      + rewrite (ofep_all _ O) by auto. rewrite p_torecv.
        rewrite (Permutation_length Howed), app_length, <- HOs, map_length. lia.
      + rewrite (ofep_none ey O) by (intros m Hm; rewrite (HO m Hm); auto).
        rewrite (Hother ey) by auto. cbn [length]. lia.
    - intros e He. destruct (Nat.eq_dec e ex) as [->|Hne].
      + rewrite (p_past ex He) in Howed. apply Permutation_nil in Howed. apply app_eq_nil in Howed. tauto.
      + rewrite Hother by auto. auto.
    - intros e He. rewrite app_assoc, ofep_app, map_app. destruct (Nat.eq_dec e ex) as [->|Hne].
      + rewrite (ofep_all _ O) by auto. rewrite HOs, <- (p_future ex He), Howed.
        rewrite <- app_assoc. rewrite (Permutation_app_comm (om G k0 ex y t)).
        rewrite <- app_assoc. reflexivity.
      + rewrite (ofep_none e O) by (intros m Hm; rewrite (HO m Hm); auto).
        rewrite (Hother e) by auto. cbn [map]. rewrite app_nil_r. auto.
    - intros m Hm. rewrite app_assoc in Hm. apply in_app_or in Hm. destruct Hm as [Hm|Hm]; [auto|].
      rewrite (HO m Hm). destruct (Nat.lt_ge_cases ex ey) as [H|H]; [|lia].
      rewrite (Hnil H) in Hm. destruct Hm.
    - intros m Hm. apply in_app_or in Hm. destruct Hm; auto.
    - rewrite app_assoc. apply epsorted_app. split; [auto|]. split.
      + apply (epsorted_const ex). auto.
      + intros a b Ha Hb. rewrite (HO b Hb). apply p_tags; auto.
    - auto.
    - intros m Hm. rewrite app_assoc in Hm. apply in_app_or in Hm. destruct Hm as [Hm|Hm]; [auto|].
      apply omsgs_in in Hm. destruct Hm as (H1 & H2 & H3 & H4 & f & Hf & _ & Hn).
      rewrite H1, H2. repeat split; auto; try tauto.
      apply (c_remote _ HG (fst t) f); tauto.
  Qed.

  (** ** Solving a task *)

  (** The outgoing rate computed for a task. *)
  Definition new_out (s : rstate) (c : pid) (d : nat) : Qc :=
    resp G c (chem s c)
      (make_positive (inc s c d) + source G c / Qc_of_nat (ndirs G) + per s c d)%Qc.

  Record solve_effect (cur : nat) (c : pid) (d : nat) (s s' : rstate) : Prop := {
    se_inc : forall p d', inc s' p d' =
        ((if pid_eqb p c && (d' =? d) then make_positive (inc s c d) else inc s p d') +
         summ p d' (lmsgs (ep s) d (new_out s c d - out s c d)%Qc (total_eff_area (faces G c) d) (faces G c)))%Qc;
    se_out : forall p d', out s' p d' = if pid_eqb p c && (d' =? d) then new_out s c d else out s p d';
    se_per : (forall m, In m (lmsgs (ep s) d (new_out s c d - out s c d)%Qc
                (total_eff_area (faces G c) d) (faces G c)) -> m_periodic m = false) ->
        forall p d', per s' p d' = per s p d';
    se_chem : chem s' = chem s;
    se_ep : ep s' = ep s;
    se_req : req s' = req s;
    se_log : log s' = (ep s, c, d) :: log s;
    se_tosend : forall y, tosend s' y = tosend s y ++
        omsgs G (ep s) d (new_out s c d - out s c d)%Qc (total_eff_area (faces G c) d) (faces G c) y;
    se_count : forall p d', cur <= lev G p ->
        cntm p d' (lmsgs (ep s) d (new_out s c d - out s c d)%Qc (total_eff_area (faces G c) d) (faces G c))
        <= miss s p d'
  }.

  Lemma inv_solve : forall S r n i t cur, inv S -> r < nranks G -> pc (rs S r) = PSolve n ->
    nth_error (queue (rs S r)) i = Some t -> nth_error (sweeps G) (ep (rs S r)) = Some cur ->
    exists s', solve_task G r cur (fst t) (snd t)
                 (set_queue (rs S r) (remove_nth i (queue (rs S r)))) = Some s' /\
      solve_effect cur (fst t) (snd t) (rs S r) s' /\
      forall p, p = PSend \/ (exists n', p = PSolve n') -> inv (set_rs S r (set_pc s' p)).
  Proof.
    intros S r n i t cur I Hr Hpc Hnth He.
    pose proof (i_rank _ _ I r Hr) as R.
    set (s := rs S r) in *. set (e := ep s) in *.
    pose proof (remove_nth_perm _ _ _ _ Hnth) as HPq.
    set (q' := remove_nth i (queue s)) in *.
    assert (Htq : In t (queue s)) by (apply nth_error_In in Hnth; auto).
    apply (r_queue _ _ _ R) in Htq. fold e in Htq. destruct Htq as [Htu Htm].
    assert (Htask := Htu). apply in_unsolved in Htask. destruct Htask as [Htask Htnl].
    apply in_tasks in Htask. destruct Htask as (Hc & Hcr & Hca & Hd).
    destruct t as [c d]. cbn [fst snd] in *.
    assert (Hact : forall p, act G e p = (cur <=? lev G p)) by (intros; unfold act; rewrite He; auto).
    (* the state in which the loop over the faces starts *)
    unfold solve_task. rewrite (proj2 (own_spec G r c)) by auto.
    set (s1 := set_inc _ _). set (o := resp G c (chem s1 c) (get_rate G s1 c d)).
    set (corr := (o - out s1 c d)%Qc). set (s2 := set_out s1 _).
    assert (Hcnt : 1 <= cnt s d).
    { rewrite (r_cnt _ _ _ R d Hd). apply (countb_pos _ _ (c, d)); auto. apply Nat.eqb_refl. }
    change (cnt s2 d) with (cnt s d). destruct (cnt s d) as [|kk] eqn:Hkk; [lia|].
    set (s3 := set_cnt s2 _). set (s4 := set_log s3 _).
    set (tot := total_eff_area (faces G c) d).
    (* nothing panics *)
    assert (Hlm : forall p d', cntm p d' (lmsgs e d corr tot (faces G c)) =
                               cntm p d' (lm G k0 e (c, d))).
    { intros. rewrite <- (cntm_strip p d' (lmsgs e d corr tot (faces G c))), lmsgs_strip. reflexivity. }
    assert (Hlown : forall m, In m (lmsgs e d corr tot (faces G c)) ->
              own G r (m_id m) = true /\ m_dir m = d).
    { intros m Hm. apply lmsgs_in in Hm. destruct Hm as (_ & Hmd & f & Hf & _ & Hn).
      split; [|exact Hmd]. apply own_spec.
      destruct (c_local _ HG c f (m_id m) Hc Hf Hn) as [X Y]. split; [congruence|auto]. }
    pose proof (unsolved_solve G (log s) r e (c, d) (c_nodup _ HG) Htu) as HPu. cbn [fst snd] in HPu.
    assert (HPL : Permutation (owedL G k0 (log s) r e)
              (lm G k0 e (c, d) ++ owedL G k0 ((e, c, d) :: log s) r e)).
    { unfold owedL. rewrite (flat_map_perm _ _ (lm G k0 e) _ _ HPu). reflexivity. }
    assert (Hzero : forall p d', (rank_of p <> r \/ ~ In p (cells G) \/ d' <> d) ->
              cntm p d' (lmsgs e d corr tot (faces G c)) = 0).
    { intros p d' Hn. unfold cntm. apply countb_zero. intros m Hm. unfold isfor.
      destruct (Hlown m Hm) as [Ho Hmd]. apply own_spec in Ho.
      destruct (pid_eqb_spec (m_id m) p) as [e0|]; [|reflexivity].
      destruct (Nat.eqb_spec (m_dir m) d') as [Hmd'|]; [|reflexivity]. exfalso.
      destruct Ho as [Ho1 Ho2]. rewrite e0 in Ho1, Ho2. destruct Hn as [Hn|[Hn|Hn]]; auto. apply Hn. congruence. }
    assert (Htake : takeable G r cur (lmsgs e d corr tot (faces G c)) s4).
    { split; [intros m Hm; apply Hlown; auto|].
      intros p d' Hp. change (miss s4 p d') with (miss s p d').
      destruct (Nat.eq_dec d' d) as [->|Hdd]; [|rewrite Hzero by auto; lia].
      destruct (Nat.eq_dec (rank_of p) r) as [Hpr|Hpr]; [|rewrite Hzero by auto; lia].
      destruct (existsb (pid_eqb p) (cells G)) eqn:Ex.
      2:{ rewrite Hzero; [lia|]. right; left. intros X. apply existsb_pid in X. congruence. }
      apply existsb_pid in Ex.
      pose proof (i_miss _ _ I p d Ex Hd) as M. rewrite Hpr in M. fold s in M. fold e in M.
      rewrite M by (rewrite Hact; apply Nat.leb_le; auto). unfold missing_sum. fold s.
      rewrite Hlm. unfold cntm at 2. rewrite (countb_perm _ _ _ _ HPL), countb_app. unfold cntm. lia. }
    assert (Hrem : forall f p, In f (faces G c) -> f_nb f = Remote p \/ f_nb f = RemotePeriodic p ->
       nb_active G r cur p = Some (cur <=? lev G p) /\ is_remote_rank G r (rank_of p) = true).
    { intros f p Hf Hn. destruct (c_remote _ HG c f p Hc Hf Hn) as (Hp & Hne & _). split.
      - rewrite <- Hact, <- Hcr. apply (nb_active_face G HG c f p e cur); auto.
        unfold nb_id. destruct Hn as [-> | ->]; reflexivity.
      - apply is_remote_spec, in_others. split; [apply (c_rank _ HG); auto|congruence]. }
    destruct (faces_loop_rel G r cur d corr tot (faces G c) s4 He Hrem Htake) as (s' & Erun & L & T).
    exists s'. split; [exact Erun|].
    change (ep s4) with e in L, T.
    assert (Hnew : o = new_out s c d).
    { unfold o, new_out, get_rate. change (inc s1 c d) with (updc (inc s) c d (make_positive (inc s c d)) c d).
      rewrite updc_eq, pid_eqb_refl, Nat.eqb_refl. reflexivity. }
    split.
    { assert (Hcorr : corr = (new_out s c d - out s c d)%Qc) by (unfold corr; rewrite Hnew; reflexivity).
      cbn [fst snd]. constructor; try rewrite <- Hcorr; fold s; fold e; fold tot.
      - intros p d'. rewrite (rel_inc _ _ _ _ _ L). reflexivity.
      - intros p d'. rewrite (rel_out _ _ _ _ _ L). rewrite <- Hnew. reflexivity.
      - intros Hper p d'. rewrite (rel_per _ _ _ _ _ L Hper). reflexivity.
      - rewrite (rel_chem _ _ _ _ _ L). reflexivity.
      - apply (rel_ep _ _ _ _ _ L).
      - apply (rel_req _ _ _ _ _ L).
      - apply (rel_log _ _ _ _ _ L).
      - intros y. apply T.
      - intros p d' Hp. apply (proj2 Htake p d' Hp). }
    intros p' Hp'.
    set (S' := set_rs S r (set_pc s' p')).
    assert (Hother : forall x, x <> r -> rs S' x = rs S x).
    { intros. unfold S'. cbn [rs set_rs]. apply upd_other; auto. }
    assert (Hsame : rs S' r = set_pc s' p') by (unfold S'; cbn [rs set_rs]; apply upd_same).
    assert (Hlog : log (rs S' r) = (e, c, d) :: log s).
    { rewrite Hsame. cbn. rewrite (rel_log _ _ _ _ _ L). reflexivity. }
    assert (Hep : ep (rs S' r) = e).
    { rewrite Hsame. cbn. rewrite (rel_ep _ _ _ _ _ L). reflexivity. }
    assert (Eep : forall x, ep (rs S' x) = ep (rs S x)).
    { intros x. destruct (Nat.eq_dec x r) as [->|]; [auto|rewrite Hother; auto]. }
    assert (Hts : forall y, tosend (rs S' r) y = tosend s y ++ omsgs G e d corr tot (faces G c) y).
    { intros. rewrite Hsame. cbn. apply T. }
    assert (Hmiss : forall p d', miss (rs S' r) p d' +
        (if cur <=? lev G p then cntm p d' (lmsgs e d corr tot (faces G c)) else 0) = miss s p d').
    { intros. rewrite Hsame. cbn [miss set_pc]. apply (rel_miss _ _ _ _ _ L). }
    assert (Hstr : forall x y, stream S' x y = stream S x y) by (intros; reflexivity).
    assert (Hqrel : forall t, In t (queue (rs S' r)) <->
        In t q' \/ (cur <= lev G (fst t) /\ 0 < miss s (fst t) (snd t) /\ miss (rs S' r) (fst t) (snd t) = 0)).
    { intros t. rewrite Hsame. cbn [queue set_pc miss]. rewrite (rel_queue _ _ _ _ _ L). reflexivity. }
    assert (Hqnd : NoDup (queue s)) by apply (r_queue_nodup _ _ _ R).
    assert (Hq'nd : NoDup ((c, d) :: q')) by (apply (Permutation_NoDup HPq); auto).
    assert (Hq'in : forall t, In t q' <-> In t (queue s) /\ t <> (c, d)).
    { intros t. inversion Hq'nd; subst. split.
      - intros Ht. split; [apply (Permutation_in _ (Permutation_sym HPq)); right; auto|].
        intros ->. auto.
      - intros [Ht Hne]. apply (Permutation_in _ HPq) in Ht. destruct Ht; [congruence|auto]. }
    constructor.
    - (* the rank itself *)
      intros x Hx. destruct (Nat.eq_dec x r) as [->|Hxr]; [|rewrite Hother by auto; apply (i_rank _ _ I); auto].
      constructor.
      + rewrite Hep. right. split.
        * rewrite Hsame. cbn. destruct Hp' as [->|[n' ->]]; discriminate.
        * destruct (r_ep _ _ _ R) as [[X _]|[_ X]]; [congruence|]. auto.
      + rewrite Hlog. constructor; auto. apply (r_log_nodup _ _ _ R).
      + rewrite Hlog, Hep. intros e' t' [X|X].
        * injection X as X0 X1 X2. rewrite <- X0. split; [|auto]. apply in_tasks. rewrite <- X1, <- X2. auto.
        * apply (r_log_in _ _ _ R); auto.
      + rewrite Hlog, Hep. intros e' t' Hlt Ht'. right. apply (r_log_done _ _ _ R); auto.
      + rewrite Hsame. cbn [queue set_pc]. apply (rel_nodup _ _ _ _ _ L).
        * inversion Hq'nd; auto.
        * intros t' Ht'. apply Hq'in in Ht'. destruct Ht' as [Ht' _].
          apply (r_queue _ _ _ R) in Ht'. apply Ht'.
      + rewrite Hlog, Hep. intros t'. rewrite Hqrel, Hq'in, (r_queue _ _ _ R t'). fold e.
        specialize (Hmiss (fst t') (snd t')). rewrite !in_unsolved. split.
        * intros [[[[H1 H2] H3] H4]|(H1 & H2 & H3)].
          -- split; [split; auto|lia]. intros [X|X]; [|auto]. apply H4. destruct t'; cbn in *; congruence.
          -- assert (Hc' : cntm (fst t') (snd t') (lmsgs e d corr tot (faces G c)) > 0).
             { rewrite (proj2 (Nat.leb_le _ _) H1) in Hmiss. lia. }
             split; [|auto]. split.
             ++ destruct (Nat.eq_dec (snd t') d) as [Hsd|Hsd].
                2:{ rewrite Hzero in Hc' by auto. lia. }
                destruct (Nat.eq_dec (rank_of (fst t')) r) as [Hpr|Hpr].
                2:{ rewrite Hzero in Hc' by auto. lia. }
                destruct (existsb (pid_eqb (fst t')) (cells G)) eqn:Ex.
                2:{ rewrite Hzero in Hc'; [lia|]. right; left. intros X. apply existsb_pid in X. congruence. }
                apply existsb_pid in Ex. apply in_tasks. rewrite Hact. repeat split; auto; [apply Nat.leb_le; auto|lia].
             ++ intros [X|X].
                ** injection X as X1 X2. rewrite <- X1, <- X2 in H2. lia.
                ** pose proof (r_solved0 _ _ _ R t' X). lia.
        * intros [[H1 H2] H3].
          assert (Hne : t' <> (c, d)) by (intros ->; apply H2; left; reflexivity).
          assert (Hni : ~ In (e, fst t', snd t') (log s)) by (intros X; apply H2; right; auto).
          destruct (Nat.eq_dec (miss s (fst t') (snd t')) 0) as [Hz|Hz].
          -- left. auto.
          -- right. split; [|split; [lia|auto]]. apply in_tasks in H1. destruct H1 as (_ & _ & H1 & _).
             rewrite Hact in H1. apply Nat.leb_le in H1. auto.
      + rewrite Hlog, Hep. intros t' Hin. specialize (Hmiss (fst t') (snd t')).
        destruct Hin as [X|X].
        * injection X as X1 X2. rewrite <- X1, <- X2 in *. lia.
        * pose proof (r_solved0 _ _ _ R t' X). lia.
      + rewrite Hlog, Hep. intros d' Hd'.
        pose proof (r_cnt _ _ _ R d' Hd') as C. fold e in C.
        rewrite (countb_perm _ _ _ _ HPu), countb_cons in C. cbn [snd] in C.
        assert (Hcnt' : cnt (rs S' r) d' = upd (cnt s) d kk d').
        { rewrite Hsame. cbn [cnt set_pc]. rewrite (rel_cnt _ _ _ _ _ L). reflexivity. }
        rewrite Hcnt'. unfold upd. rewrite (Nat.eqb_sym d d') in C.
        destruct (Nat.eqb_spec d' d) as [->|]; lia.
      + intros y Hy. rewrite Hsame. cbn [req buf set_pc].
        rewrite (rel_req _ _ _ _ _ L), (rel_buf _ _ _ _ _ L). apply (r_req _ _ _ R); auto.
      + intros y Hy X. rewrite Hsame in X. cbn in X. destruct Hp' as [->|[n' ->]]; destruct X; discriminate.
      + intros l X. rewrite Hsame in X. cbn in X. destruct Hp' as [->|[n' ->]]; discriminate.
    - (* pairs *)
      intros x y Hx Hy Hxy. rewrite !Eep, Hstr.
      pose proof (i_pair _ _ I x y Hx Hy Hxy) as P.
      assert (Etr : torecv (rs S' y) = torecv (rs S y)).
      { destruct (Nat.eq_dec y r) as [->|]; [|rewrite Hother; auto]. rewrite Hsame. cbn.
        rewrite (rel_torecv _ _ _ _ _ L). reflexivity. }
      rewrite Etr. destruct (Nat.eq_dec x r) as [->|Hxr]; [|rewrite Hother by auto; auto].
      rewrite Hlog, Hts. fold s. fold s in P. fold e. fold e in P.
      apply (pinv_solve r y (log s) e (tosend s y) _ _ _ (c, d) corr P Hxy Htu).
    - (* missing counts *)
      intros c' d' Hc' Hd'. rewrite Eep. intros Ha'.
      pose proof (i_miss _ _ I c' d' Hc' Hd' Ha') as M.
      destruct (Nat.eq_dec (rank_of c') r) as [Hcr'|Hcr'].
      + rewrite Hcr' in *. fold s in M, Ha'. fold s. fold e in M, Ha'. fold e.
        specialize (Hmiss c' d'). rewrite Hact in Ha'. rewrite Ha' in Hmiss.
        rewrite Hlm in Hmiss. unfold missing_sum in *. rewrite Hlog. fold s in M.
        unfold cntm at 1 in M. rewrite (countb_perm _ _ _ _ HPL), countb_app in M.
        assert (Hsum : list_sum (map (fun x => cntm c' d' (owed G k0 (log (rs S' x)) x r e) +
             cntm c' d' (ofep e (flight S' x r))) (others G r)) =
          list_sum (map (fun x => cntm c' d' (owed G k0 (log (rs S x)) x r e) +
             cntm c' d' (ofep e (flight S x r))) (others G r))).
        { apply list_sum_map_ext. intros x Hx. apply in_others in Hx. unfold flight.
          rewrite Hother by tauto. rewrite Hstr. reflexivity. }
        rewrite Hsum. unfold cntm in *. lia.
      + rewrite Hother by auto. rewrite M. unfold missing_sum.
        set (y := rank_of c') in *. set (ey := ep (rs S y)) in *.
        rewrite (Hother y) by auto. f_equal.
        apply list_sum_map_ext. intros x Hx.
        destruct (Nat.eq_dec x r) as [->|Hxr].
        * rewrite Hlog. unfold flight. rewrite Hstr, Hts. fold s. rewrite !ofep_app, !cntm_app.
          set (OM := omsgs G e d corr tot (faces G c) y).
          assert (HOM : forall m, In m OM -> m_ep m = e) by (intros m Hm; apply omsgs_in in Hm; tauto).
          destruct (Nat.eq_dec ey e) as [Hey|Hey].
          -- rewrite Hey, (ofep_all e OM) by auto. unfold owed.
             unfold cntm at 1. rewrite (countb_perm _ _ _ _ (flat_map_perm _ _ (om G k0 e y) _ _ HPu)).
             cbn [flat_map]. rewrite countb_app.
             fold (cntm c' d' (om G k0 e y (c, d))).
             rewrite <- (om_k0 G e y (c, d) corr). cbn [fst snd]. rewrite cntm_strip. unfold OM, tot, cntm. lia.
          -- rewrite (ofep_none ey OM) by (intros m Hm; rewrite (HOM m Hm); auto).
             unfold owed. rewrite unsolved_solve_other by auto. unfold cntm. rewrite countb_nil. lia.
        * unfold flight. rewrite Hother, Hstr by auto. reflexivity.
    - (* order *)
      intros e' c' d' p f Hin Hc' Hf Hu Ht Ha.
      assert (Hmono : forall x z, In z (log (rs S x)) -> In z (log (rs S' x))).
      { intros x z Hz. destruct (Nat.eq_dec x r) as [->|]; [rewrite Hlog; right; auto|rewrite Hother; auto]. }
      apply Hmono. destruct (Nat.eq_dec (rank_of c') r) as [Hcr'|Hcr'].
      + rewrite Hcr', Hlog in Hin. destruct Hin as [X|X].
        * injection X as <- <- <-. replace e with (ep (rs S (rank_of c))) by (rewrite Hcr; reflexivity).
          apply (upwind_solved S c d p f); auto; rewrite ?Hcr; auto.
        * apply (i_order _ _ I e' c' d' p f); auto. rewrite Hcr'. auto.
      + rewrite Hother in Hin by auto. apply (i_order _ _ I e' c' d' p f); auto.
  Qed.
End Steps2.
