(** The values along an execution: solving a task, starting a sweep. *)
From Coq Require Import List Arith Bool Lia Permutation QArith Qcanon.
From Verif Require Import Sweep_Model Sweep_Spec Sweep_Util Sweep_Local Sweep_Inv Sweep_Count
  Sweep_Steps Sweep_Steps2 Sweep_Steps3 Sweep_Safety Sweep_Value.
Import ListNotations.
Local Open Scope nat_scope.

Section Value.
  Variable G : config.
  Hypothesis HG : consistent G.
  Hypothesis HNP : non_periodic G.
  Variable P : pid -> nat -> Qc.
  Variables I O : nat -> pid -> nat -> Qc.
  Variable X : nat -> pid -> list Qc.
  Hypothesis HS : solution G P I O X.

  Notation inv := (inv G).
  Notation vinv := (vinv G P I O X).
  Notation kk := (kk O).
  Notation total := (total G O).
  Notation pendsum := (pendsum G O).
  Notation tasks := (tasks G).
  Notation unsolved := (unsolved G).

  Lemma solvedb_cons : forall lg e c d c' d',
    solvedb ((e, c, d) :: lg) e (c', d') = (pid_eqb c' c && (d' =? d)) || solvedb lg e (c', d').
  Proof.
    intros. unfold solvedb. cbn [existsb fst snd]. rewrite Nat.eqb_refl. cbn [andb].
    rewrite (Nat.eqb_sym d d'). f_equal. destruct (pid_eqb_spec c c'), (pid_eqb_spec c' c); congruence.
  Qed.

  Lemma owed_solve : forall lg x y e t, In t (unsolved lg x e) ->
    Permutation (owed G kk lg x y e) (om G kk e y t ++ owed G kk ((e, fst t, snd t) :: lg) x y e).
  Proof.
    intros. unfold owed. rewrite (flat_map_perm _ _ (om G kk e y) _ _ (unsolved_solve G lg x e t (c_nodup _ HG) H)).
    reflexivity.
  Qed.
  Lemma owedL_solve : forall lg x e t, In t (unsolved lg x e) ->
    Permutation (owedL G kk lg x e) (lm G kk e t ++ owedL G kk ((e, fst t, snd t) :: lg) x e).
  Proof.
    intros. unfold owedL. rewrite (flat_map_perm _ _ (lm G kk e) _ _ (unsolved_solve G lg x e t (c_nodup _ HG) H)).
    reflexivity.
  Qed.
  Lemma owed_other : forall lg x y e e' c d, e <> e' ->
    owed G kk ((e, c, d) :: lg) x y e' = owed G kk lg x y e'.
  Proof. intros. unfold owed. rewrite unsolved_solve_other; auto. Qed.

  (** A queued task gets the outgoing rate of the specification. *)
  Lemma solve_value : forall S r t cur, inv S -> vinv S -> r < nranks G ->
    In t (queue (rs S r)) -> nth_error (sweeps G) (ep (rs S r)) = Some cur ->
    make_positive (inc (rs S r) (fst t) (snd t)) = I (Datatypes.S (ep (rs S r))) (fst t) (snd t) /\
    out (rs S r) (fst t) (snd t) = O (ep (rs S r)) (fst t) (snd t) /\
    new_out G (rs S r) (fst t) (snd t) = O (Datatypes.S (ep (rs S r))) (fst t) (snd t).
  Proof.
    intros S r [c d] cur J V Hr Hq He. cbn [fst snd].
    pose proof (i_rank _ _ J r Hr) as R. apply (r_queue _ _ _ R) in Hq. cbn [fst snd] in Hq.
    destruct Hq as [Hu Hm]. apply in_unsolved in Hu. cbn [fst snd] in Hu. destruct Hu as [Ht Hnl].
    apply in_tasks in Ht. cbn [fst snd] in Ht. destruct Ht as (Hc & Hrc & Ha & Hd).
    assert (Hns : solvedb (log (rs S r)) (ep (rs S r)) (c, d) = false).
    { destruct (solvedb _ _ _) eqn:E; [|reflexivity]. apply solvedb_spec in E. contradiction. }
    pose proof (v_inc _ _ _ _ _ _ V c d Hc Hd) as Vi. pose proof (v_out _ _ _ _ _ _ V c d Hc Hd) as Vo.
    pose proof (v_per _ _ _ _ _ _ V c d Hc Hd) as Vp. pose proof (v_chem _ _ _ _ _ _ V c Hc) as Vc.
    pose proof (i_miss _ _ J c d Hc Hd) as Jm.
    rewrite Hrc in *. rewrite Hns in Vi, Vo. specialize (Jm Ha). rewrite Hm in Jm.
    rewrite (pendsum_zero G O S r _ c d (eq_sym Jm)) in Vi.
    assert (Hlev : (cur <=? lev G c) = true) by (unfold act in Ha; rewrite He in Ha; exact Ha).
    pose proof (sol_in _ _ _ _ _ HS _ cur c d He Hc Hd) as Si. rewrite Hlev in Si.
    pose proof (sol_out _ _ _ _ _ HS _ cur c d He Hc Hd) as So. rewrite Hlev in So.
    assert (Hinc : make_positive (inc (rs S r) c d) = I (Datatypes.S (ep (rs S r))) c d).
    { rewrite Si. unfold Sweep_Value.total in Vi. rewrite He in Vi. rewrite <- Vi.
      unfold make_positive, Qcmax0. rewrite Qcplus_0_r. reflexivity. }
    split; [exact Hinc|]. split; [exact Vo|].
    unfold new_out. rewrite Hinc, Vp, Vc, So. reflexivity.
  Qed.

  Lemma vinv_solve : forall S r t cur s' p, inv S -> vinv S -> r < nranks G ->
    In t (queue (rs S r)) -> nth_error (sweeps G) (ep (rs S r)) = Some cur ->
    solve_effect G cur (fst t) (snd t) (rs S r) s' ->
    vinv (set_rs S r (set_pc s' p)).
  Proof.
    intros S r t cur s' p J V Hr Hq He Ef.
    destruct (solve_value S r t cur J V Hr Hq He) as (W1 & W2 & W3).
    pose proof (i_rank _ _ J r Hr) as R. apply (r_queue _ _ _ R) in Hq.
    destruct Hq as [Hu Hm]. assert (Hu' := Hu). apply in_unsolved in Hu. destruct Hu as [Ht Hnl].
    apply in_tasks in Ht. destruct Ht as (Hc & Hrc & Ha & Hd).
    set (e := ep (rs S r)) in *. destruct t as [c d]. cbn [fst snd] in *.
    assert (Hcorr : (new_out G (rs S r) c d - out (rs S r) c d)%Qc = kk e c d) by (rewrite W3, W2; reflexivity).
    set (S' := set_rs _ _ _).
    assert (Hne : forall z, z <> r -> rs S' z = rs S z) by (intros; unfold S'; cbn; apply upd_other; auto).
    assert (Hrr : rs S' r = set_pc s' p) by (unfold S'; cbn; apply upd_same).
    assert (Hep : forall z, ep (rs S' z) = ep (rs S z)).
    { intros z. destruct (Nat.eq_dec z r) as [->|]; [|rewrite Hne; auto].
      rewrite Hrr. cbn. apply (se_ep _ _ _ _ _ _ Ef). }
    assert (Hlogr : log (rs S' r) = (e, c, d) :: log (rs S r)).
    { rewrite Hrr. cbn. apply (se_log _ _ _ _ _ _ Ef). }
    assert (HFo : forall a b, a <> r -> flight S' a b = flight S a b).
    { intros a b Hab. unfold flight, stream. rewrite Hne by auto. reflexivity. }
    assert (HF : forall y, flight S' r y = flight S r y ++ om G kk e y (c, d)).
    { intros y. unfold flight, stream. rewrite Hrr. cbn [tosend set_pc].
      rewrite (se_tosend _ _ _ _ _ _ Ef), Hcorr, app_assoc. reflexivity. }
    assert (Hlm : forall c' d', summ c' d' (lmsgs e d (new_out G (rs S r) c d - out (rs S r) c d)%Qc
       (total_eff_area (faces G c) d) (faces G c)) = summ c' d' (lm G kk e (c, d))).
    { intros. rewrite Hcorr. reflexivity. }
    assert (Hom : forall y m, In m (om G kk e y (c, d)) -> m_ep m = e).
    { intros y m Hin. apply omsgs_in in Hin. tauto. }
    assert (Hp : forall c' d', pendsum S r e c' d' = (pendsum S' r e c' d' + summ c' d' (lm G kk e (c, d)))%Qc).
    { intros c' d'. unfold Sweep_Value.pendsum. rewrite Hlogr.
      rewrite (summ_perm c' d' _ _ (owedL_solve _ r e (c, d) Hu')), summ_app. cbn [fst snd].
      rewrite (Qcsum_map_ext _ (fun x => summ c' d' (owed G kk (log (rs S' x)) x r e) + summ c' d' (ofep e (flight S' x r)))%Qc
        (fun x => summ c' d' (owed G kk (log (rs S x)) x r e) + summ c' d' (ofep e (flight S x r)))%Qc); [ring|].
      intros z Hz. apply in_others in Hz. rewrite Hne, HFo by tauto. reflexivity. }
    assert (Hpair : forall y c' d' e', (summ c' d' (owed G kk (log (rs S' r)) r y e') + summ c' d' (ofep e' (flight S' r y)) =
       summ c' d' (owed G kk (log (rs S r)) r y e') + summ c' d' (ofep e' (flight S r y)))%Qc).
    { intros y c' d' e'. rewrite Hlogr, HF, ofep_app, summ_app.
      destruct (Nat.eq_dec e e') as [<-|Hee].
      - rewrite (ofep_all e (om G kk e y (c, d))) by apply Hom.
        rewrite (summ_perm c' d' _ _ (owed_solve _ r y e (c, d) Hu')), summ_app. cbn [fst snd]. ring.
      - rewrite (ofep_none e' (om G kk e y (c, d))) by (intros m Hin; rewrite (Hom _ _ Hin); auto).
        rewrite owed_other, summ_nil by auto. ring. }
    assert (Hpo : forall y c' d', y <> r -> pendsum S' y (ep (rs S y)) c' d' = pendsum S y (ep (rs S y)) c' d').
    { intros y c' d' Hy. unfold Sweep_Value.pendsum. rewrite (Hne y Hy). f_equal. apply Qcsum_map_ext. intros z Hz.
      destruct (Nat.eq_dec z r) as [->|Hzr]; [apply Hpair|]. rewrite Hne, HFo by auto. reflexivity. }
    assert (Hlev : forall q, act G e q = true -> cur <= lev G q).
    { intros q Hqa. unfold act in Hqa. rewrite He in Hqa. apply Nat.leb_le; auto. }
    constructor.
    - intros c' d' Hc' Hd'. rewrite Hep. pose proof (v_out _ _ _ _ _ _ V c' d' Hc' Hd') as Vo.
      destruct (Nat.eq_dec (rank_of c') r) as [E|E]; [|rewrite Hne; auto]. rewrite E in *. fold e in Vo. fold e.
      rewrite Hlogr, solvedb_cons, Hrr. cbn [out set_pc]. rewrite (se_out _ _ _ _ _ _ Ef).
      destruct (pid_eqb_spec c' c) as [Ec|]; cbn [andb orb]; [|exact Vo].
      destruct (Nat.eqb_spec d' d) as [Ed|]; cbn [andb orb]; [|exact Vo].
      rewrite Ec, Ed. exact W3.
    - intros c' d' Hc' Hd'. rewrite Hep. pose proof (v_inc _ _ _ _ _ _ V c' d' Hc' Hd') as Vi.
      destruct (Nat.eq_dec (rank_of c') r) as [E|E]; [|rewrite Hpo, Hne; auto]. rewrite E in *. fold e in Vi. fold e.
      rewrite Hlogr, solvedb_cons, Hrr. cbn [inc set_pc]. rewrite (se_inc _ _ _ _ _ _ Ef). fold e.
      assert (Hz : act G e c' = true -> miss (rs S r) c' d' = 0 ->
        summ c' d' (lmsgs e d (new_out G (rs S r) c d - out (rs S r) c d)%Qc (total_eff_area (faces G c) d) (faces G c)) = 0%Qc).
      { intros Ha' Hm'. apply summ_nocount. pose proof (se_count _ _ _ _ _ _ Ef c' d' (Hlev _ Ha')) as Y. fold e in Y. lia. }
      destruct (pid_eqb c' c && (d' =? d)) eqn:Ecd; cbn [orb].
      + apply andb_true_iff in Ecd. destruct Ecd as [Ec Ed]. apply Nat.eqb_eq in Ed.
        destruct (pid_eqb_spec c' c) as [Ec'|]; [|discriminate]. subst c' d'.
        rewrite Hz by auto. rewrite W1. apply Qcplus_0_r.
      + destruct (solvedb (log (rs S r)) e (c', d')) eqn:Es.
        * rewrite Vi, Hz; [apply Qcplus_0_r| |].
          -- apply solvedb_spec in Es. apply (r_log_in _ _ _ R _ (c', d')) in Es. destruct Es as [Es _].
             apply in_tasks in Es. tauto.
          -- apply solvedb_spec in Es. apply (r_solved0 _ _ _ R (c', d')). exact Es.
        * rewrite <- Vi, Hlm, Hp. ring.
    - intros c' d' Hc' Hd'. rewrite <- (v_per _ _ _ _ _ _ V c' d' Hc' Hd').
      destruct (Nat.eq_dec (rank_of c') r) as [E|E]; [|rewrite Hne; auto]. rewrite E.
      rewrite Hrr. cbn [per set_pc]. apply (se_per _ _ _ _ _ _ Ef).
      intros m Hin. apply (lmsgs_nonperiodic G HNP c) in Hin; auto.
    - intros c' Hc'. rewrite Hep, <- (v_chem _ _ _ _ _ _ V c' Hc').
      destruct (Nat.eq_dec (rank_of c') r) as [E|E]; [|rewrite Hne; auto]. rewrite E.
      rewrite Hrr. cbn [chem set_pc]. rewrite (se_chem _ _ _ _ _ _ Ef). reflexivity.
    - intros a y m Hra Hy Hay Hin. destruct (Nat.eq_dec a r) as [Ear|Ear].
      + subst a. rewrite HF in Hin. apply in_app_or in Hin. destruct Hin as [Hin|Hin].
        * apply (v_np _ _ _ _ _ _ V r y m); auto.
        * apply (omsgs_nonperiodic G HNP c) in Hin; auto.
      + rewrite HFo in Hin by auto. apply (v_np _ _ _ _ _ _ V a y m); auto.
    - intros a y e' Hra Hy Hay. rewrite Hep. intros Hlt. rewrite <- (v_future _ _ _ _ _ _ V a y e') by auto.
      destruct (Nat.eq_dec a r) as [Ear|Ear]; [|rewrite Hne, HFo by auto; reflexivity].
      subst a. rewrite Hlogr, HF, ofep_app. destruct (Nat.eq_dec e e') as [<-|Hee].
      + rewrite (ofep_all e (om G kk e y (c, d))) by apply Hom.
        rewrite (owed_solve _ r y e (c, d) Hu'). cbn [fst snd].
        rewrite (Permutation_app_comm (ofep e (flight S r y))), app_assoc.
        apply Permutation_app_tail. apply Permutation_app_comm.
      + rewrite (ofep_none e' (om G kk e y (c, d))) by (intros m Hin; rewrite (Hom _ _ Hin); auto).
        rewrite owed_other, app_nil_r by auto. reflexivity.
  Qed.

  Lemma owed_nil_kk : forall lg x y e, owed G k0 lg x y e = [] -> owed G kk lg x y e = [].
  Proof.
    intros lg x y e H. assert (E : map strip (owed G kk lg x y e) = []).
    { rewrite <- H. unfold owed. clear H. induction (unsolved lg x e) as [|t l IH]; [reflexivity|].
      cbn [flat_map]. rewrite map_app, IH, map_strip_om. reflexivity. }
    destruct (owed G kk lg x y e); [reflexivity|discriminate].
  Qed.

  Lemma vinv_next : forall S r s', inv S -> vinv S -> r < nranks G -> pc (rs S r) = PHead ->
    loop_cond G r (rs S r) = false ->
    started G r (Datatypes.S (ep (rs S r))) (update_chemistry G r (rs S r)) s' ->
    vinv (set_rs S r s').
  Proof.
    intros S r s' J V Hr Hpc Hlc St.
    pose proof (i_rank _ _ J r Hr) as R.
    destruct (loop_cond_false _ _ _ Hlc) as [Hc0 Hx0].
    pose proof (all_dirs_solved _ _ _ R Hc0) as Hdone.
    assert (Hlt : ep (rs S r) < length (sweeps G)).
    { destruct (r_ep _ _ _ R) as [[Y _]|[_ Y]]; [congruence|auto]. }
    destruct (nth_error (sweeps G) (ep (rs S r))) as [cur|] eqn:He.
    2:{ apply nth_error_None in He. lia. }
    set (e := ep (rs S r)) in *.
    assert (U : inc (update_chemistry G r (rs S r)) = inc (rs S r) /\ out (update_chemistry G r (rs S r)) = out (rs S r) /\
                per (update_chemistry G r (rs S r)) = per (rs S r) /\ log (update_chemistry G r (rs S r)) = log (rs S r) /\
                tosend (update_chemistry G r (rs S r)) = tosend (rs S r)).
    { unfold update_chemistry. destruct (nth_error _ _); cbn; auto. }
    destruct U as (U1 & U2 & U3 & U4 & U5).
    set (S' := set_rs S r s').
    assert (Hne : forall z, z <> r -> rs S' z = rs S z) by (intros; unfold S'; cbn; apply upd_other; auto).
    assert (Hrr : rs S' r = s') by (unfold S'; cbn; apply upd_same).
    assert (Hlog : forall z, log (rs S' z) = log (rs S z)).
    { intros z. destruct (Nat.eq_dec z r) as [->|]; [|rewrite Hne; auto]. rewrite Hrr, (st_log _ _ _ _ _ St). auto. }
    assert (HF : forall a b, flight S' a b = flight S a b).
    { intros a b. unfold flight, stream. destruct (Nat.eq_dec a r) as [->|]; [|rewrite Hne; auto].
      rewrite Hrr, (st_tosend _ _ _ _ _ St), U5. reflexivity. }
    assert (Hep' : ep s' = Datatypes.S e) by apply (st_ep _ _ _ _ _ St).
    assert (Hp : forall y e' c d, pendsum S' y e' c d = pendsum S y e' c d).
    { intros y e' c d. unfold Sweep_Value.pendsum. rewrite Hlog. f_equal. apply Qcsum_map_ext. intros z _.
      rewrite Hlog, HF. reflexivity. }
    (* the sweep is over for this rank *)
    assert (Hp0 : forall c d, pendsum S r e c d = 0%Qc).
    { intros c d. unfold Sweep_Value.pendsum. unfold owedL. rewrite Hdone. cbn [flat_map]. rewrite summ_nil.
      rewrite Qcsum_map_zero; [ring|]. intros x Hx. destruct (Hx0 x Hx) as [_ Htr].
      apply in_others in Hx. destruct Hx as [Hx Hxr].
      pose proof (p_torecv _ _ _ _ _ _ _ _ _ (i_pair _ _ J x r Hx Hr Hxr)) as T. fold e in T. rewrite Htr in T.
      rewrite (owed_nil_kk _ x r e) by (apply length_zero_iff_nil; lia).
      assert (Z : ofep e (flight S x r) = []) by (apply length_zero_iff_nil; unfold flight; lia).
      rewrite Z, summ_nil. ring. }
    assert (Hval : forall c d, In c (cells G) -> rank_of c = r -> d < ndirs G ->
      inc (rs S r) c d = I (Datatypes.S e) c d /\ out (rs S r) c d = O (Datatypes.S e) c d).
    { intros c d Hc Hrc Hd. pose proof (v_inc _ _ _ _ _ _ V c d Hc Hd) as Vi. pose proof (v_out _ _ _ _ _ _ V c d Hc Hd) as Vo.
      rewrite Hrc in *. fold e in Vi, Vo.
      pose proof (sol_in _ _ _ _ _ HS e cur c d He Hc Hd) as Si.
      pose proof (sol_out _ _ _ _ _ HS e cur c d He Hc Hd) as So.
      destruct (solvedb (log (rs S r)) e (c, d)) eqn:Es; [auto|].
      assert (Hin : (cur <=? lev G c) = false).
      { destruct (cur <=? lev G c) eqn:El; [exfalso|reflexivity].
        assert (Hin : In (c, d) (unsolved (log (rs S r)) r e)).
        { apply in_unsolved. cbn [fst snd]. split.
          - apply in_tasks. cbn. unfold act. rewrite He. auto.
          - intros Y. apply (solvedb_spec _ _ (c, d)) in Y. congruence. }
        rewrite Hdone in Hin. destruct Hin. }
      rewrite Hin in Si, So. rewrite Hp0 in Vi. unfold Sweep_Value.total in Vi. rewrite He in Vi.
      split; [|congruence]. rewrite Si, <- Vi. symmetry. apply Qcplus_0_r. }
    assert (Hns : forall t, solvedb (log (rs S r)) (Datatypes.S e) t = false).
    { intros t. destruct (solvedb _ _ _) eqn:Es; [exfalso|reflexivity]. apply solvedb_spec in Es.
      apply (r_log_in _ _ _ R) in Es. fold e in Es. lia. }
    constructor.
    - intros c d Hc Hd. rewrite Hlog. pose proof (v_out _ _ _ _ _ _ V c d Hc Hd) as Vo.
      destruct (Nat.eq_dec (rank_of c) r) as [E|E]; [|rewrite Hne; auto]. rewrite E in *.
      rewrite Hrr, Hep', Hns, (st_out _ _ _ _ _ St), U2. apply Hval; auto.
    - intros c d Hc Hd. rewrite Hlog, Hp. pose proof (v_inc _ _ _ _ _ _ V c d Hc Hd) as Vi.
      destruct (Nat.eq_dec (rank_of c) r) as [E|E]; [|rewrite Hne; auto]. rewrite E in *.
      rewrite Hrr, Hep', Hns, (st_inc _ _ _ _ _ St), U1.
      destruct (Hval c d Hc E Hd) as [-> _]. f_equal.
      rewrite <- (total_spec G HG O c d (Datatypes.S e) Hc Hd). rewrite E. unfold Sweep_Value.pendsum. f_equal.
      + unfold owedL. rewrite (unsolved_future G r (rs S r) (Datatypes.S e) R); [reflexivity|]. fold e. lia.
      + apply Qcsum_map_ext. intros x Hx. apply in_others in Hx. rewrite <- summ_app. apply summ_perm.
        apply (v_future _ _ _ _ _ _ V); try tauto. fold e. lia.
    - intros c d Hc Hd. rewrite <- (v_per _ _ _ _ _ _ V c d Hc Hd).
      destruct (Nat.eq_dec (rank_of c) r) as [E|E]; [|rewrite Hne; auto]. rewrite E.
      rewrite Hrr, (st_per _ _ _ _ _ St), U3. reflexivity.
    - intros c Hc. pose proof (v_chem _ _ _ _ _ _ V c Hc) as Vc.
      destruct (Nat.eq_dec (rank_of c) r) as [E|E]; [|rewrite Hne; auto]. rewrite E in *.
      rewrite Hrr, Hep', (st_chem _ _ _ _ _ St). unfold update_chemistry. fold e. rewrite He. cbn [chem set_chem].
      rewrite (proj2 (own_spec G r c)) by auto. cbn [andb]. rewrite Vc. fold e.
      rewrite (sol_chem _ _ _ _ _ HS e cur c He Hc).
      destruct (cur <=? lev G c); [|reflexivity]. f_equal. apply Qcsum_map_ext.
      intros d Hd. apply in_seq in Hd. unfold get_rate, rate_of.
      destruct (Hval c d Hc E) as [-> _]; [lia|].
      pose proof (v_per _ _ _ _ _ _ V c d Hc) as Vp. rewrite E in Vp. rewrite Vp by lia. reflexivity.
    - intros a y m Ha Hy Hay. rewrite HF. apply (v_np _ _ _ _ _ _ V); auto.
    - intros a y e' Ha Hy Hay Hl. rewrite Hlog, HF. apply (v_future _ _ _ _ _ _ V); auto.
      destruct (Nat.eq_dec y r) as [E|E]; [|rewrite Hne in Hl; auto].
      rewrite E in *. rewrite Hrr, Hep' in Hl. fold e. lia.
  Qed.

  Lemma init_vinv : forall i o p x S0, init G i o p x = Some S0 ->
    (forall c d, In c (cells G) -> d < ndirs G -> i c d = I 0 c d /\ o c d = O 0 c d /\ p c d = P c d) ->
    (forall c, In c (cells G) -> x c = X 0 c) ->
    vinv S0.
  Proof.
    intros i o p x S0 H H1 H2. destruct (init_state G HG i o p x) as (S1 & E & Hs & Hn & Hm).
    rewrite H in E. injection E as <-.
    assert (St : forall r, r < nranks G -> started G r 0 (blank i o p x) (rs S0 r)).
    { intros r Hr. destruct (start_sweep_spec G HG r 0 (blank i o p x)) as (s' & E & St).
      rewrite (Hs r Hr) in E. injection E as ->. exact St. }
    assert (HF : forall a b, a < nranks G -> flight S0 a b = []).
    { intros a b Ha. unfold flight, stream. rewrite Hn, Hm, (st_tosend _ _ _ _ _ (St a Ha)). reflexivity. }
    assert (Hl : forall r, r < nranks G -> log (rs S0 r) = []).
    { intros r Hr. rewrite (st_log _ _ _ _ _ (St r Hr)). reflexivity. }
    assert (Hep : forall r, r < nranks G -> ep (rs S0 r) = 0).
    { intros r Hr. rewrite (st_ep _ _ _ _ _ (St r Hr)). reflexivity. }
    constructor.
    - intros c d Hc Hd. pose proof (c_rank _ HG c Hc) as Hr. rewrite (Hl _ Hr), (Hep _ Hr), (st_out _ _ _ _ _ (St _ Hr)).
      cbn. apply H1; auto.
    - intros c d Hc Hd. pose proof (c_rank _ HG c Hc) as Hr.
      rewrite (Hl _ Hr), (Hep _ Hr), (st_inc _ _ _ _ _ (St _ Hr)). cbn [solvedb existsb inc blank].
      destruct (H1 c d Hc Hd) as (-> & _). f_equal.
      rewrite <- (total_spec G HG O c d 0 Hc Hd). unfold Sweep_Value.pendsum. f_equal.
      + unfold owedL. rewrite (Hl _ Hr), unsolved_empty_log. reflexivity.
      + apply Qcsum_map_ext. intros y Hy. apply in_others in Hy. destruct Hy as [Hy _].
        rewrite (HF y _ Hy), (Hl y Hy). unfold owed, expected. rewrite unsolved_empty_log. cbn [ofep filter].
        rewrite summ_nil. apply Qcplus_0_r.
    - intros c d Hc Hd. pose proof (c_rank _ HG c Hc) as Hr. rewrite (st_per _ _ _ _ _ (St _ Hr)). apply H1; auto.
    - intros c Hc. pose proof (c_rank _ HG c Hc) as Hr. rewrite (Hep _ Hr), (st_chem _ _ _ _ _ (St _ Hr)). apply H2; auto.
    - intros a b m Ha Hb Hab Hin. rewrite HF in Hin by auto. destruct Hin.
    - intros a b e Ha Hb Hab Hlt. rewrite HF, (Hl a Ha) by auto. cbn [ofep filter]. rewrite app_nil_r.
      unfold owed, expected. rewrite unsolved_empty_log. reflexivity.
  Qed.

  Lemma step_vinv : forall S o S', inv S -> vinv S -> step G S o = Some S' -> vinv S'.
  Proof.
    intros S o S' J V. destruct o as [r k|x y|x y eager]; cbn [step].
    - destruct (Nat.ltb_spec r (nranks G)) as [Hr|]; [|intros E; injection E as <-; auto].
      pose proof (i_rank _ _ J r Hr) as R. unfold run_rank.
      assert (Hepc : pc (rs S r) <> PFinished -> exists cur, nth_error (sweeps G) (ep (rs S r)) = Some cur).
      { intros Y. destruct (r_ep _ _ _ R) as [[Z _]|[_ Z]]; [contradiction|].
        destruct (nth_error (sweeps G) (ep (rs S r))) eqn:E; [eauto|]. apply nth_error_None in E. lia. }
      destruct (pc (rs S r)) as [|[|x l]|n| |] eqn:Hpc.
      + destruct (loop_cond G r (rs S r)) eqn:Hlc.
        * intros E; injection E as <-. apply vinv_set_pc; auto.
        * destruct (inv_next G HG S r J Hr Hpc Hlc) as (s' & E & St & _).
          rewrite E. cbn. intros E'; injection E' as <-. apply vinv_next; auto.
      + intros E; injection E as <-. apply vinv_set_pc; auto.
      + assert (Hskip : vinv (set_rs S r (set_pc (rs S r) (PRecv l)))) by (apply vinv_set_pc; auto).
        destruct (Nat.ltb_spec 0 (torecv (rs S r) x)) as [Htr|]; [|intros E; injection E as <-; auto].
        destruct Hepc as (cur & He); [congruence|].
        destruct (mail S x r) as [|b rest] eqn:Hmail; [intros E; injection E as <-; auto|].
        rewrite He.
        destruct (inv_receive G S r x l b rest cur J Hr Hpc Htr Hmail He) as (s' & E & Rl & Ts & Cn & _).
        rewrite E. intros E'; injection E' as <-.
        apply (vinv_receive G P I O X S r x l b rest cur); auto.
      + destruct (queue (rs S r)) as [|t0 q0] eqn:Hq.
        * intros E; injection E as <-. apply vinv_set_pc; auto.
        * set (q := t0 :: q0) in *.
          destruct Hepc as (cur & He); [congruence|].
          destruct (nth_error q (k mod length q)) as [[c d]|] eqn:Hnth; [|discriminate].
          rewrite He. rewrite <- Hq in Hnth.
          destruct (inv_solve G HG S r n _ (c, d) cur J Hr Hpc Hnth He) as (s' & E & Ef & _).
          cbn [fst snd] in E. rewrite Hq in E. rewrite E. intros E'; injection E' as <-.
          apply (vinv_solve S r (c, d) cur); auto. apply nth_error_In in Hnth. auto.
      + intros E; injection E as <-. apply vinv_send; auto.
      + intros E; injection E as <-; auto.
    - destruct (net S x y) as [|b rest] eqn:Hn; intros E; injection E as <-; auto.
      apply vinv_deliver; auto.
    - destruct (req (rs S x) y) eqn:Hq; try (intros E; injection E as <-; auto; fail).
      destruct (eager || _); intros E; injection E as <-; auto. apply vinv_complete; auto.
  Qed.

  Lemma exec_vinv : forall ops S S', inv S -> vinv S -> exec G S ops = Some S' -> vinv S'.
  Proof.
    induction ops as [|o ops IH]; intros S S' J V; cbn [exec].
    - intros E; injection E as <-; auto.
    - destruct (step_inv G HG S o J) as (S1 & E & J1). rewrite E. apply IH; auto.
      apply (step_vinv S o); auto.
  Qed.

  (** A finished execution has computed the specified values. *)
  Lemma finished_values : forall i o p x S,
    (forall c d, In c (cells G) -> d < ndirs G -> i c d = I 0 c d /\ o c d = O 0 c d /\ p c d = P c d) ->
    (forall c, In c (cells G) -> x c = X 0 c) ->
    reachable G i o p x S -> finished G S ->
    forall c, In c (cells G) ->
      chem (rs S (rank_of c)) c = X (length (sweeps G)) c /\
      forall d, d < ndirs G ->
        inc (rs S (rank_of c)) c d = I (length (sweeps G)) c d /\
        out (rs S (rank_of c)) c d = O (length (sweeps G)) c d /\
        per (rs S (rank_of c)) c d = P c d.
  Proof.
    intros i o p x S H1 H2 (S0 & ops & E0 & E) F c Hc.
    pose proof (init_inv G HG _ _ _ _ _ E0) as J0. pose proof (init_vinv _ _ _ _ _ E0 H1 H2) as V0.
    pose proof (exec_vinv ops S0 S J0 V0 E) as V.
    assert (J : inv S) by (destruct (exec_inv G HG ops S0 J0) as (S1 & E1 & J1); congruence).
    pose proof (c_rank _ HG c Hc) as Hr. pose proof (i_rank _ _ J _ Hr) as R.
    destruct (r_ep _ _ _ R) as [[_ Ep]|[Y _]]; [|exfalso; apply Y, F; auto].
    assert (Hb : nth_error (sweeps G) (length (sweeps G)) = None) by (apply nth_error_None; auto).
    split; [rewrite <- Ep; apply (v_chem _ _ _ _ _ _ V c Hc)|]. intros d Hd.
    pose proof (v_inc _ _ _ _ _ _ V c d Hc Hd) as Vi. pose proof (v_out _ _ _ _ _ _ V c d Hc Hd) as Vo.
    assert (Hns : solvedb (log (rs S (rank_of c))) (ep (rs S (rank_of c))) (c, d) = false).
    { destruct (solvedb _ _ _) eqn:Es; [exfalso|reflexivity]. apply solvedb_spec in Es.
      apply (r_log_in _ _ _ R) in Es. destruct Es as [Es _]. rewrite Ep, (tasks_beyond G) in Es by auto. destruct Es. }
    rewrite Hns in Vi, Vo. rewrite Ep in *. unfold Sweep_Value.total in Vi. rewrite Hb in Vi.
    assert (Hp0 : pendsum S (rank_of c) (length (sweeps G)) c d = 0%Qc).
    { unfold Sweep_Value.pendsum, owedL, owed, Sweep_Inv.unsolved. rewrite (tasks_beyond G) by auto. cbn [filter flat_map].
      rewrite summ_nil, Qcsum_map_zero; [ring|]. intros y Hy. apply in_others in Hy. destruct Hy as [Hy Hne].
      rewrite (tasks_beyond G) by auto. cbn [filter flat_map].
      rewrite (finished_no_messages G S y (rank_of c) J F Hy Hr Hne). cbn [ofep filter]. rewrite summ_nil. ring. }
    rewrite Hp0, !Qcplus_0_r in Vi. split; [exact Vi|]. split; [exact Vo|]. apply (v_per _ _ _ _ _ _ V c d Hc Hd).
  Qed.
End Value.
