(** Every step of the system preserves the invariant and does not panic. *)
From Coq Require Import List Arith Bool Lia Permutation QArith Qcanon.
From Verif Require Import Sweep_Model Sweep_Spec Sweep_Util Sweep_Local Sweep_Inv Sweep_Count.
Import ListNotations.
Local Open Scope nat_scope.

Lemma upd_same : forall A (f : nat -> A) k v, upd f k v k = v.
Proof. intros. unfold upd. rewrite Nat.eqb_refl. reflexivity. Qed.
Lemma upd_other : forall A (f : nat -> A) k v x, x <> k -> upd f k v x = f x.
Proof. intros. unfold upd. apply Nat.eqb_neq in H. rewrite H. reflexivity. Qed.

Section Steps.
  Variable G : config.
  Hypothesis HG : consistent G.

  Notation inv := (inv G).
  Notation rinv := (rinv G).
  Notation pinv := (pinv G).

  (** ** States which differ only in what the invariant does not see *)
  Lemma inv_frame : forall S S' r,
    inv S -> r < nranks G ->
    (forall x, x <> r -> rs S' x = rs S x) ->
    (forall x y, stream S' x y = stream S x y) ->
    rinv r (rs S' r) ->
    ep (rs S' r) = ep (rs S r) -> log (rs S' r) = log (rs S r) ->
    tosend (rs S' r) = tosend (rs S r) -> torecv (rs S' r) = torecv (rs S r) ->
    miss (rs S' r) = miss (rs S r) ->
    inv S'.
  Proof.
    intros S S' r I Hr Ho Hst R E1 E2 E3 E4 E5.
    assert (Eep : forall x, ep (rs S' x) = ep (rs S x)).
    { intros x. destruct (Nat.eq_dec x r) as [->|]; [auto|rewrite Ho; auto]. }
    assert (Elog : forall x, log (rs S' x) = log (rs S x)).
    { intros x. destruct (Nat.eq_dec x r) as [->|]; [auto|rewrite Ho; auto]. }
    assert (Ets : forall x, tosend (rs S' x) = tosend (rs S x)).
    { intros x. destruct (Nat.eq_dec x r) as [->|]; [auto|rewrite Ho; auto]. }
    assert (Etr : forall x, torecv (rs S' x) = torecv (rs S x)).
    { intros x. destruct (Nat.eq_dec x r) as [->|]; [auto|rewrite Ho; auto]. }
    assert (Em : forall x, miss (rs S' x) = miss (rs S x)).
    { intros x. destruct (Nat.eq_dec x r) as [->|]; [auto|rewrite Ho; auto]. }
    constructor.
    - intros x Hx. destruct (Nat.eq_dec x r) as [->|]; [auto|rewrite Ho; auto]. apply (i_rank _ _ I); auto.
    - intros x y Hx Hy Hxy. rewrite !Eep, !Elog, !Ets, !Etr, Hst. apply (i_pair _ _ I); auto.
    - intros c d Hc Hd. rewrite Eep, Em. intros Ha. rewrite (i_miss _ _ I c d Hc Hd Ha).
      unfold missing_sum. rewrite Elog. f_equal. apply list_sum_map_ext. intros x _.
      unfold flight. rewrite Elog, Hst, Ets. reflexivity.
    - intros e c d p f. rewrite !Elog. apply (i_order _ _ I).
  Qed.

  Lemma stream_eq : forall S S', net S' = net S -> mail S' = mail S ->
    forall x y, stream S' x y = stream S x y.
  Proof. intros. unfold stream. congruence. Qed.

  Lemma rinv_set_pc : forall r s p, rinv r s -> pc s <> PFinished -> p <> PFinished -> p <> PHead ->
    (forall l, p = PRecv l -> incl l (others G r)) -> rinv r (set_pc s p).
  Proof.
    intros r s p R Hp1 Hp2 Hp3 Hl. destruct R. constructor; cbn; auto.
    - destruct r_ep as [[X _]|[_ X]]; [contradiction|]. right; auto.
    - intros x _ [X|X]; congruence.
  Qed.

  Lemma inv_set_pc : forall S r p, inv S -> r < nranks G -> pc (rs S r) <> PFinished ->
    p <> PFinished -> p <> PHead -> (forall l, p = PRecv l -> incl l (others G r)) ->
    inv (set_rs S r (set_pc (rs S r) p)).
  Proof.
    intros S r p I Hr H1 H2 H3 H4. apply (inv_frame S _ r); auto; cbn [set_rs rs].
    - intros. apply upd_other; auto.
    - rewrite upd_same. apply rinv_set_pc; auto. apply (i_rank _ _ I); auto.
    - rewrite upd_same. reflexivity.
    - rewrite upd_same. reflexivity.
    - rewrite upd_same. reflexivity.
    - rewrite upd_same. reflexivity.
    - rewrite upd_same. reflexivity.
  Qed.

  (** ** Network steps *)
  Lemma upd2_eq : forall A (f : nat -> nat -> A) k l v x y,
    upd2 f k l v x y = if (x =? k) && (y =? l) then v else f x y.
  Proof. reflexivity. Qed.

  Lemma inv_deliver : forall S x y b rest, inv S -> net S x y = b :: rest ->
    inv (mkS (rs S) (upd2 (net S) x y rest) (upd2 (mail S) x y (mail S x y ++ [b]))).
  Proof.
    intros S x y b rest I Hn.
    assert (Hst : forall x' y', stream (mkS (rs S) (upd2 (net S) x y rest)
        (upd2 (mail S) x y (mail S x y ++ [b]))) x' y' = stream S x' y').
    { intros. unfold stream. cbn [mail net]. rewrite !upd2_eq.
      destruct (Nat.eqb_spec x' x), (Nat.eqb_spec y' y); cbn [andb]; auto. subst.
      rewrite Hn, <- app_assoc. reflexivity. }
    constructor; cbn [rs].
    - apply (i_rank _ _ I).
    - intros. rewrite Hst. apply (i_pair _ _ I); auto.
    - intros c d Hc Hd Ha. rewrite (i_miss _ _ I c d Hc Hd Ha). unfold missing_sum. cbn [rs].
      f_equal. apply list_sum_map_ext. intros z _. unfold flight. rewrite Hst. reflexivity.
    - apply (i_order _ _ I).
  Qed.

  Lemma inv_complete : forall S x y, inv S -> req (rs S x) y = RPending ->
    inv (set_rs S x (set_comm (rs S x) (tosend (rs S x)) (buf (rs S x)) (upd (req (rs S x)) y RDone))).
  Proof.
    intros S x y I Hq.
    set (s' := set_comm _ _ _ _).
    destruct (Nat.lt_ge_cases x (nranks G)) as [Hx|Hx].
    - apply (inv_frame S _ x); auto; cbn [set_rs rs]; try (rewrite upd_same; reflexivity).
      + intros. apply upd_other; auto.
      + rewrite upd_same. pose proof (i_rank _ _ I x Hx) as R. destruct R.
        constructor; cbn; auto.
        intros z Hz. destruct (Nat.eq_dec z y) as [->|Hzy].
        * rewrite upd_same. rewrite <- (r_req y Hz). rewrite Hq. split; discriminate.
        * rewrite upd_other by auto. auto.
    - (* a rank which does not exist *)
      assert (Ho : forall z, z < nranks G -> rs (set_rs S x s') z = rs S z).
      { intros. cbn [set_rs rs]. apply upd_other. lia. }
      constructor.
      + intros z Hz. rewrite Ho by auto. apply (i_rank _ _ I); auto.
      + intros a b Ha Hb Hab. rewrite !Ho by auto. apply (i_pair _ _ I); auto.
      + intros c d Hc Hd. rewrite Ho by (apply (c_rank _ HG); auto). intros Ha.
        rewrite (i_miss _ _ I c d Hc Hd Ha). unfold missing_sum.
        rewrite Ho by (apply (c_rank _ HG); auto). f_equal. apply list_sum_map_ext.
        intros z Hz. apply in_others in Hz. unfold flight. rewrite Ho by tauto. reflexivity.
      + intros e c d p f Hl Hc Hf Hu Ht Ha.
        assert (Hp : In p (cells G)).
        { unfold face_to in Ht. destruct (f_nb f) as [q|q| |q|q] eqn:E; try discriminate;
            destruct (pid_eqb_spec q p); try discriminate; subst.
          - apply (c_local _ HG c f p); auto.
          - apply (c_remote _ HG c f p); auto. }
        rewrite Ho in * by (apply (c_rank _ HG); auto). apply (i_order _ _ I e c d p f); auto.
  Qed.

  (** ** Sending *)
  Lemma send_one_spec : forall t b q, (q = RNone <-> b = []) ->
    (exists b' q', send_one t b q = (t, b', q', []) /\ (q' = RNone <-> b' = []) /\ (b' = [] -> t = [])) \/
    (t <> [] /\ send_one t b q = ([], t, RPending, [t])).
  Proof.
    intros t b q Hq. unfold send_one.
    destruct q; cbn [is_pending].
    - destruct t as [|m t].
      + left. exists [], RNone. cbn. split; auto. split; tauto.
      + right. split; [discriminate|]. reflexivity.
    - assert (b <> []) by (intros X; apply Hq in X; discriminate).
      destruct t as [|m t]; left; exists b, RPending; cbn; (split; [auto|]); split; tauto.
    - destruct t as [|m t].
      + left. exists [], RNone. cbn. split; auto. split; tauto.
      + right. split; [discriminate|]. reflexivity.
  Qed.

  Lemma inv_send : forall S r, inv S -> r < nranks G -> pc (rs S r) = PSend ->
    inv (mkS (upd (rs S) r (set_pc (try_send_all G r (rs S r)) PHead))
           (fun x y => if x =? r then net S x y ++ sent_batches G r (rs S r) y else net S x y)
           (mail S)).
  Proof.
    intros S r I Hr Hpc.
    pose proof (i_rank _ _ I r Hr) as R.
    set (S' := mkS _ _ _). set (s := rs S r) in *.
    assert (Hcase : forall y, In y (others G r) ->
      (sent_batches G r s y = [] /\ tosend (rs S' r) y = tosend s y /\
         (req (rs S' r) y = RNone <-> buf (rs S' r) y = []) /\ (buf (rs S' r) y = [] -> tosend s y = [])) \/
      (tosend s y <> [] /\ sent_batches G r s y = [tosend s y] /\ tosend (rs S' r) y = [] /\
         req (rs S' r) y = RPending /\ buf (rs S' r) y = tosend s y)).
    { intros y Hy. unfold S'. cbn [rs]. rewrite upd_same. unfold sent_batches, try_send_all. cbn.
      rewrite (proj2 (is_remote_spec G r y) Hy).
      destruct (send_one_spec (tosend s y) (buf s y) (req s y) (r_req _ _ _ R y Hy)) as [(b' & q' & E & H1 & H2)|(Hn & E)];
        rewrite E; cbn; [left|right]; auto. }
    assert (Hother : forall x, x <> r -> rs S' x = rs S x).
    { intros. unfold S'. cbn [rs]. apply upd_other; auto. }
    assert (Hstr : forall x y, x <> r -> stream S' x y = stream S x y).
    { intros x y Hx. unfold S', stream. cbn. apply Nat.eqb_neq in Hx. rewrite Hx. reflexivity. }
    assert (Hfl : forall x y, x < nranks G -> y < nranks G -> x <> y -> flight S' x y = flight S x y).
    { intros x y Hx Hy Hxy. unfold flight. destruct (Nat.eq_dec x r) as [->|Hn].
      - assert (Hy' : In y (others G r)) by (apply in_others; auto).
        unfold stream. unfold S' at 1 2. cbn [mail net]. rewrite Nat.eqb_refl.
        destruct (Hcase y Hy') as [(E1 & E2 & _)|(_ & E1 & E2 & _)]; rewrite E1, E2.
        + rewrite app_nil_r. reflexivity.
        + rewrite !concat_app. cbn. rewrite !app_nil_r, <- !app_assoc. reflexivity.
      - rewrite Hother, Hstr by auto. reflexivity. }
    assert (Eep : forall x, ep (rs S' x) = ep (rs S x)).
    { intros x. destruct (Nat.eq_dec x r) as [->|]; [|rewrite Hother; auto].
      unfold S'. cbn [rs]. rewrite upd_same. reflexivity. }
    assert (Elog : forall x, log (rs S' x) = log (rs S x)).
    { intros x. destruct (Nat.eq_dec x r) as [->|]; [|rewrite Hother; auto].
      unfold S'. cbn [rs]. rewrite upd_same. reflexivity. }
    assert (Etr : forall x, torecv (rs S' x) = torecv (rs S x)).
    { intros x. destruct (Nat.eq_dec x r) as [->|]; [|rewrite Hother; auto].
      unfold S'. cbn [rs]. rewrite upd_same. reflexivity. }
    assert (Em : forall x, miss (rs S' x) = miss (rs S x)).
    { intros x. destruct (Nat.eq_dec x r) as [->|]; [|rewrite Hother; auto].
      unfold S'. cbn [rs]. rewrite upd_same. reflexivity. }
    constructor.
    - intros x Hx. destruct (Nat.eq_dec x r) as [->|]; [|rewrite Hother by auto; apply (i_rank _ _ I); auto].
      assert (Hreq : forall y, In y (others G r) -> (req (rs S' r) y = RNone <-> buf (rs S' r) y = [])).
      { intros y Hy. destruct (Hcase y Hy) as [(_ & _ & H & _)|(Hn & _ & _ & H1 & H2)]; auto.
        rewrite H1, H2. split; [discriminate|contradiction]. }
      assert (Hhead : forall y, In y (others G r) -> buf (rs S' r) y = [] -> tosend (rs S' r) y = []).
      { intros y Hy Hb. destruct (Hcase y Hy) as [(_ & E & _ & H)|(Hn & _ & _ & _ & H2)].
        - rewrite E. auto.
        - congruence. }
      clear Hcase. unfold S' in *. cbn [rs] in *. rewrite upd_same in *.
      destruct R. constructor; cbn in *; auto.
      + destruct r_ep as [[X _]|[_ X]]; [congruence|]. right. split; [discriminate|auto].
      + discriminate.
    - intros x y Hx Hy Hxy. rewrite !Eep, !Elog, !Etr.
      pose proof (i_pair _ _ I x y Hx Hy Hxy) as P.
      destruct (Nat.eq_dec x r) as [->|Hn]; [|rewrite Hother, Hstr by auto; auto].
      assert (F : concat (stream S' r y) ++ tosend (rs S' r) y = concat (stream S r y) ++ tosend (rs S r) y)
        by (apply (Hfl r y); auto).
      destruct P. constructor.
      + rewrite F. auto.
      + auto.
      + intros e He. rewrite F. auto.
      + rewrite F. auto.
      + assert (Hy' : In y (others G r)) by (apply in_others; auto).
        destruct (Hcase y Hy') as [(_ & E & _)|(_ & _ & E & _)]; rewrite E; auto. intros m [].
      + rewrite F. auto.
      + assert (Hy' : In y (others G r)) by (apply in_others; auto).
        unfold stream at 1, S'. cbn [mail net]. rewrite Nat.eqb_refl. rewrite app_assoc. intros b Hb.
        apply in_app_or in Hb. destruct Hb as [Hb|Hb]; [apply p_batch; auto|].
        destruct (Hcase y Hy') as [(E & _)|(Hne & E & _)]; rewrite E in Hb; [destruct Hb|].
        destruct Hb as [<-|[]]. split; auto. intros m m' Hm Hm'. fold s in p_tosend.
        rewrite (p_tosend m), (p_tosend m'); auto.
      + rewrite F. auto.
    - intros c d Hc Hd. rewrite Eep, Em. intros Ha. rewrite (i_miss _ _ I c d Hc Hd Ha).
      unfold missing_sum. rewrite Elog. f_equal. apply list_sum_map_ext. intros x Hx.
      apply in_others in Hx. rewrite Elog, Hfl; auto; try tauto. apply (c_rank _ HG); auto.
    - intros e c d p f. rewrite !Elog. apply (i_order _ _ I).
  Qed.
End Steps.
