(** Progress: a measure of the work left, and the operations which are bound to
    reduce it. *)
From Coq Require Import List Arith Bool Lia Permutation QArith Qcanon.
From Verif Require Import Sweep_Model Sweep_Spec Sweep_Util Sweep_Local Sweep_Inv Sweep_Count
  Sweep_Steps Sweep_Steps2 Sweep_Steps3 Sweep_Safety.
Import ListNotations.
Local Open Scope nat_scope.

Lemma list_sum_decrease : forall A (f g : A -> nat) a l, In a l ->
  (forall b, In b l -> f b <= g b) -> f a < g a ->
  list_sum (map f l) < list_sum (map g l).
Proof.
  induction l as [|b l IH]; [intros []|]. intros Hin Hle Hlt. cbn [map]. rewrite !list_sum_cons.
  pose proof (Hle b (or_introl eq_refl)).
  destruct Hin as [->|Hin].
  - pose proof (list_sum_le _ f g l (fun b Hb => Hle b (or_intror Hb))). lia.
  - assert (list_sum (map f l) < list_sum (map g l)); [|lia]. apply IH; auto. intros; apply Hle; right; auto.
Qed.

Section Live.
  Variable G : config.
  Hypothesis HG : consistent G.

  Notation inv := (inv G).
  Notation tasks := (tasks G).
  Notation unsolved := (unsolved G).

  Definition wtask (t : pid * nat) : nat := 1 + 5 * length (faces G (fst t)).
  Definition wtasks (lg : list (nat * pid * nat)) (r : nat) : nat :=
    list_sum (map (fun e => list_sum (map wtask (unsolved lg r e))) (seq 0 (length (sweeps G)))).
  Definition wreq (q : reqst) : nat := match q with RNone => 0 | RDone => 1 | RPending => 2 end.
  Definition wpair (S : state) (x y : nat) : nat :=
    5 * length (tosend (rs S x) y) + 2 * length (concat (net S x y)) + length (concat (mail S x y)) +
    wreq (req (rs S x) y).
  Definition wrank (S : state) (x : nat) : nat :=
    wtasks (log (rs S x)) x + (length (sweeps G) - ep (rs S x)) +
    list_sum (map (wpair S x) (others G x)).
  Definition work (S : state) : nat := list_sum (map (wrank S) (seq 0 (nranks G))).

  Lemma work_decrease : forall S S' a, a < nranks G -> wrank S' a < wrank S a ->
    (forall z, z < nranks G -> z <> a -> wrank S' z = wrank S z) -> work S' < work S.
  Proof.
    intros S S' a Ha Hlt Heq. unfold work. apply (list_sum_decrease _ _ _ a); auto.
    - apply in_seq. lia.
    - intros b Hb. apply in_seq in Hb. destruct (Nat.eq_dec b a) as [->|]; [lia|]. rewrite Heq; lia.
  Qed.

  (** ** Steps which do not reduce the work only move a program counter *)
  Inductive qstep (S : state) (r : nat) : pcs -> pcs -> Prop :=
  | q_head_recv : queue (rs S r) = [] -> loop_cond G r (rs S r) = true -> qstep S r PHead (PRecv (others G r))
  | q_head_solve : queue (rs S r) <> [] -> loop_cond G r (rs S r) = true -> qstep S r PHead (PSolve 0)
  | q_recv_end : qstep S r (PRecv []) (PSolve 0)
  | q_recv_skip x l : torecv (rs S r) x = 0 \/ mail S x r = [] -> qstep S r (PRecv (x :: l)) (PRecv l)
  | q_solve_end n : queue (rs S r) = [] -> qstep S r (PSolve n) PSend
  | q_send : (forall y, In y (others G r) -> req (rs S r) y <> RDone /\
                (req (rs S r) y = RNone -> tosend (rs S r) y = [])) -> qstep S r PSend PHead
  | q_fin : qstep S r PFinished PFinished.

  Record same (S S' : state) : Prop := {
    sm_queue : forall r, r < nranks G -> queue (rs S' r) = queue (rs S r);
    sm_cond : forall r, r < nranks G -> loop_cond G r (rs S' r) = loop_cond G r (rs S r);
    sm_torecv : forall r x, r < nranks G -> In x (others G r) -> torecv (rs S' r) x = torecv (rs S r) x;
    sm_tosend : forall r x, r < nranks G -> In x (others G r) -> tosend (rs S' r) x = tosend (rs S r) x;
    sm_req : forall r x, r < nranks G -> In x (others G r) -> req (rs S' r) x = req (rs S r) x;
    sm_net : forall r x, r < nranks G -> In x (others G r) -> net S' r x = net S r x;
    sm_mail : forall r x, r < nranks G -> In x (others G r) -> mail S' r x = mail S r x;
    sm_ep : forall r, r < nranks G -> ep (rs S' r) = ep (rs S r);
    sm_log : forall r, r < nranks G -> log (rs S' r) = log (rs S r)
  }.

  Lemma same_work : forall S S', same S S' -> work S' = work S.
  Proof.
    intros S S' H. unfold work. apply list_sum_map_ext. intros r Hr. apply in_seq in Hr.
    unfold wrank. rewrite (sm_ep _ _ H), (sm_log _ _ H) by lia. f_equal.
    apply list_sum_map_ext. intros y Hy. unfold wpair.
    rewrite (sm_tosend _ _ H), (sm_net _ _ H), (sm_mail _ _ H), (sm_req _ _ H) by (auto; lia). reflexivity.
  Qed.

  Definition quiet (o : op) (S S' : state) : Prop :=
    same S S' /\
    (forall z, z < nranks G -> (forall k, o <> Run z k) -> pc (rs S' z) = pc (rs S z)) /\
    (forall z k, z < nranks G -> o = Run z k -> qstep S z (pc (rs S z)) (pc (rs S' z))) /\
    (forall x y, x < nranks G -> In y (others G x) -> o = Deliver x y -> net S x y = []) /\
    (forall x y b, x < nranks G -> In y (others G x) -> o = Complete x y b ->
       req (rs S x) y <> RPending \/ net S x y <> [] \/ mail S x y <> []).

  Lemma same_refl : forall S, same S S.
  Proof. intros. constructor; auto. Qed.

  Lemma same_set_pc : forall S r p, same S (set_rs S r (set_pc (rs S r) p)).
  Proof.
    intros S r p. constructor; intros; cbn; unfold upd;
      try (destruct (Nat.eqb_spec r0 r) as [->|]; reflexivity); reflexivity.
  Qed.

  Lemma quiet_set_pc : forall S r k p, qstep S r (pc (rs S r)) p ->
    quiet (Run r k) S (set_rs S r (set_pc (rs S r) p)).
  Proof.
    intros S r k p Q. split; [apply same_set_pc|]. split; [|split; [|split; [discriminate|discriminate]]].
    - intros z _ Hz. cbn. rewrite upd_other; [reflexivity|]. intros ->. apply (Hz k). reflexivity.
    - intros z k' _ E. injection E as <- <-. cbn. rewrite upd_same. exact Q.
  Qed.

  (** Solving a task. *)
  Lemma sum_faces : forall e d corr tot fs r,
    list_sum (map (fun y => length (omsgs G e d corr tot fs y)) (others G r)) <= length fs.
  Proof.
    intros e d corr tot fs r. induction fs as [|f fs IH].
    - cbn. clear. induction (others G r); [cbn; lia|]. cbn [map]. rewrite list_sum_cons. cbn. auto.
    - rewrite (list_sum_map_ext _ _ (fun y => length (omsg1 G e d corr tot y f) + length (omsgs G e d corr tot fs y)))
        by (intros; unfold omsgs; cbn [flat_map]; apply app_length).
      rewrite list_sum_map_add. cbn [length].
      assert (list_sum (map (fun y => length (omsg1 G e d corr tot y f)) (others G r)) <= 1); [|lia].
      clear IH. unfold omsg1. destruct (downwind f d).
      2:{ rewrite (proj2 (list_sum_map_zero _ _ _)); [lia|reflexivity]. }
      assert (H : forall p b, list_sum (map (fun y => length (if act G e p && (rank_of p =? y)
          then [mkMsg p d (corr * (eff_area f d / tot))%Qc b e] else [])) (others G r)) <= 1).
      { intros p b. pose proof (others_nodup G r) as ND. induction ND as [|y l Hy ND IH]; [cbn; lia|].
        cbn [map]. rewrite list_sum_cons. destruct (act G e p && (rank_of p =? y)) eqn:E; [|cbn; lia].
        apply andb_true_iff in E. destruct E as [_ E]. apply Nat.eqb_eq in E.
        rewrite (proj2 (list_sum_map_zero _ _ _)); [cbn; lia|].
        intros z Hz. destruct (act G e p); [|reflexivity]. cbn [andb].
        destruct (Nat.eqb_spec (rank_of p) z); [|reflexivity]. exfalso. congruence. }
      destruct (f_nb f); try (rewrite (proj2 (list_sum_map_zero _ _ _)); [lia|reflexivity]); apply H.
  Qed.

  Lemma wtasks_solve : forall lg r e t, e < length (sweeps G) -> In t (unsolved lg r e) ->
    wtasks ((e, fst t, snd t) :: lg) r + wtask t = wtasks lg r.
  Proof.
    intros lg r e t He Ht. unfold wtasks. symmetry.
    apply (list_sum_change _ _ _ e (wtask t)); [apply seq_NoDup|apply in_seq; lia| |].
    - rewrite (list_sum_perm _ wtask _ _ (unsolved_solve G lg r e t (c_nodup _ HG) Ht)).
      cbn [map]. rewrite list_sum_cons. lia.
    - intros e' _ Hne. rewrite unsolved_solve_other by auto. reflexivity.
  Qed.

  Lemma work_solve : forall S r t cur s' p, inv S -> r < nranks G ->
    In t (queue (rs S r)) -> nth_error (sweeps G) (ep (rs S r)) = Some cur ->
    solve_effect G cur (fst t) (snd t) (rs S r) s' ->
    work (set_rs S r (set_pc s' p)) < work S.
  Proof.
    intros S r t cur s' p J Hr Hq He Ef.
    pose proof (i_rank _ _ J r Hr) as R. apply (r_queue _ _ _ R) in Hq. destruct Hq as [Hu _].
    assert (Hlt : ep (rs S r) < length (sweeps G)) by (apply nth_error_Some; congruence).
    apply (work_decrease _ _ r Hr).
    - unfold wrank, wpair. cbn [set_rs rs net mail]. rewrite upd_same. cbn [log ep tosend req set_pc].
      rewrite (se_log _ _ _ _ _ _ Ef), (se_ep _ _ _ _ _ _ Ef), (se_req _ _ _ _ _ _ Ef).
      pose proof (wtasks_solve _ _ _ _ Hlt Hu) as HW. unfold wtask in HW.
      set (corr := (new_out G (rs S r) (fst t) (snd t) - out (rs S r) (fst t) (snd t))%Qc) in *.
      pose proof (sum_faces (ep (rs S r)) (snd t) corr (total_eff_area (faces G (fst t)) (snd t)) (faces G (fst t)) r) as HF.
      rewrite (list_sum_map_ext _ _ (fun y => (5 * length (tosend (rs S r) y) + 2 * length (concat (net S r y)) +
         length (concat (mail S r y)) + wreq (req (rs S r) y)) + (length (omsgs G (ep (rs S r)) (snd t) corr
         (total_eff_area (faces G (fst t)) (snd t)) (faces G (fst t)) y) * 5))).
      2:{ intros y _. rewrite (se_tosend _ _ _ _ _ _ Ef), app_length. fold corr. lia. }
      rewrite list_sum_map_add.
      assert (HM : forall A (f : A -> nat) l, list_sum (map (fun a => f a * 5) l) = list_sum (map f l) * 5).
      { clear. induction l as [|a l IH]; [reflexivity|]. cbn [map]. rewrite !list_sum_cons. lia. }
      rewrite HM. lia.
    - intros z _ Hz. unfold wrank, wpair. cbn [set_rs rs net mail]. rewrite upd_other by auto. reflexivity.
  Qed.

  Lemma work_receive : forall S r x l b rest cur s', inv S -> r < nranks G ->
    pc (rs S r) = PRecv (x :: l) -> mail S x r = b :: rest ->
    rel G cur b (set_torecv (rs S r) (upd (torecv (rs S r)) x (torecv (rs S r) x - length b))) s' ->
    tosend s' = tosend (rs S r) ->
    work (mkS (upd (rs S) r (set_pc s' (PRecv l))) (net S) (upd2 (mail S) x r rest)) < work S.
  Proof.
    intros S r x l b rest cur s' J Hr Hpc Hmail Rl Ts.
    pose proof (i_rank _ _ J r Hr) as R.
    assert (Hxo : In x (others G r)) by (apply (r_recv _ _ _ R (x :: l) Hpc); left; auto).
    apply in_others in Hxo. destruct Hxo as [Hx Hxr].
    assert (Hb : b <> []).
    { apply (p_batch _ _ _ _ _ _ _ _ _ (i_pair _ _ J x r Hx Hr Hxr)). unfold stream. rewrite Hmail. left; auto. }
    set (S' := mkS _ _ _).
    assert (E : forall z, log (rs S' z) = log (rs S z) /\ ep (rs S' z) = ep (rs S z) /\
                 tosend (rs S' z) = tosend (rs S z) /\ req (rs S' z) = req (rs S z)).
    { intros z. unfold S'. cbn [rs]. destruct (Nat.eq_dec z r) as [->|Hz]; [|rewrite upd_other by auto; auto].
      rewrite upd_same. cbn. rewrite (rel_log _ _ _ _ _ Rl), (rel_ep _ _ _ _ _ Rl), (rel_req _ _ _ _ _ Rl), Ts. auto. }
    assert (EP : forall z y, (z, y) <> (x, r) -> wpair S' z y = wpair S z y).
    { intros z y Hzy. unfold wpair. destruct (E z) as (_ & _ & -> & ->). unfold S'; cbn [net mail].
      rewrite upd2_eq. destruct (Nat.eqb_spec z x), (Nat.eqb_spec y r); cbn [andb]; auto. congruence. }
    apply (work_decrease _ _ x Hx).
    - unfold wrank. destruct (E x) as (-> & -> & _ & _).
      apply Nat.add_lt_mono_l. apply (list_sum_decrease _ _ _ r); [apply in_others; auto| |].
      + intros y _. destruct (Nat.eq_dec y r) as [->|Hy]; [|rewrite EP; [lia|congruence]].
        unfold wpair. destruct (E x) as (_ & _ & -> & ->). unfold S'; cbn [net mail].
        rewrite upd2_eq, !Nat.eqb_refl, Hmail. cbn [andb concat]. rewrite app_length. lia.
      + unfold wpair. destruct (E x) as (_ & _ & -> & ->). unfold S'; cbn [net mail].
        rewrite upd2_eq, !Nat.eqb_refl, Hmail. cbn [andb concat]. rewrite app_length.
        destruct b; [congruence|]. cbn [length]. lia.
    - intros z _ Hz. unfold wrank. destruct (E z) as (-> & -> & _ & _). f_equal.
      apply list_sum_map_ext. intros y _. apply EP. congruence.
  Qed.

  Lemma work_next : forall S r s', inv S -> r < nranks G -> pc (rs S r) = PHead ->
    started G r (Datatypes.S (ep (rs S r))) (update_chemistry G r (rs S r)) s' ->
    work (set_rs S r s') < work S.
  Proof.
    intros S r s' J Hr Hpc St. pose proof (i_rank _ _ J r Hr) as R.
    assert (Hlt : ep (rs S r) < length (sweeps G)).
    { destruct (r_ep _ _ _ R) as [[Y _]|[_ Y]]; [congruence|auto]. }
    assert (U : log (update_chemistry G r (rs S r)) = log (rs S r) /\ req (update_chemistry G r (rs S r)) = req (rs S r) /\
                tosend (update_chemistry G r (rs S r)) = tosend (rs S r)).
    { unfold update_chemistry. destruct (nth_error _ _); cbn; auto. }
    destruct U as (U1 & U2 & U3).
    apply (work_decrease _ _ r Hr).
    - unfold wrank, wpair. cbn [set_rs rs net mail]. rewrite upd_same.
      rewrite (st_log _ _ _ _ _ St), (st_ep _ _ _ _ _ St), (st_tosend _ _ _ _ _ St), (st_req _ _ _ _ _ St), U1, U2, U3.
      lia.
    - intros z _ Hz. unfold wrank, wpair. cbn [set_rs rs net mail]. rewrite upd_other by auto. reflexivity.
  Qed.

  Lemma work_deliver : forall S x y b rest, inv S -> x < nranks G -> In y (others G x) -> net S x y = b :: rest ->
    work (mkS (rs S) (upd2 (net S) x y rest) (upd2 (mail S) x y (mail S x y ++ [b]))) < work S.
  Proof.
    intros S x y b rest J Hx Hy Hn. assert (Hy' := Hy). apply in_others in Hy'. destruct Hy' as [Hyn Hyx].
    assert (Hb : b <> []).
    { apply (p_batch _ _ _ _ _ _ _ _ _ (i_pair _ _ J x y Hx Hyn (not_eq_sym Hyx))). unfold stream. rewrite Hn.
      apply in_or_app. right; left; auto. }
    set (S' := mkS _ _ _).
    assert (EP : forall z w, (z, w) <> (x, y) -> wpair S' z w = wpair S z w).
    { intros z w Hzw. unfold wpair, S'; cbn [net mail rs]. rewrite !upd2_eq.
      destruct (Nat.eqb_spec z x), (Nat.eqb_spec w y); cbn [andb]; auto. congruence. }
    assert (E1 : wpair S' x y < wpair S x y).
    { unfold wpair, S'; cbn [net mail rs]. rewrite !upd2_eq, !Nat.eqb_refl, Hn. cbn [andb].
      rewrite concat_app, !app_length. cbn [concat]. rewrite !app_length. destruct b; [congruence|]. cbn [length]. lia. }
    apply (work_decrease _ _ x Hx).
    - unfold wrank. apply Nat.add_lt_mono_l. apply (list_sum_decrease _ _ _ y); auto.
      intros w _. destruct (Nat.eq_dec w y) as [->|]; [lia|]. rewrite EP; [lia|congruence].
    - intros z _ Hz. unfold wrank. f_equal. apply list_sum_map_ext. intros w _. apply EP. congruence.
  Qed.

  Lemma work_complete : forall S x y, x < nranks G -> In y (others G x) -> req (rs S x) y = RPending ->
    work (set_rs S x (set_comm (rs S x) (tosend (rs S x)) (buf (rs S x)) (upd (req (rs S x)) y RDone))) < work S.
  Proof.
    intros S x y Hx Hy Hq. apply (work_decrease _ _ x Hx).
    - unfold wrank, wpair. cbn [set_rs rs net mail]. rewrite upd_same. cbn [log ep tosend req set_comm].
      apply Nat.add_lt_mono_l. apply (list_sum_decrease _ _ _ y); auto.
      + intros w _. destruct (Nat.eq_dec w y) as [->|]; [rewrite upd_same, Hq; cbn; lia|rewrite upd_other; auto].
      + rewrite upd_same, Hq. cbn. lia.
    - intros z _ Hz. unfold wrank, wpair. cbn [set_rs rs net mail]. rewrite upd_other by auto. reflexivity.
  Qed.

  (** Sending. *)
  Lemma send_one_weight : forall t b q, (q = RNone <-> b = []) ->
    let '(t', b', q', sent) := send_one t b q in
    (t' = t /\ b' = b /\ q' = q /\ sent = [] /\ q <> RDone /\ (q = RNone -> t = [])) \/
    5 * length t' + 2 * length (concat sent) + wreq q' < 5 * length t + wreq q.
  Proof.
    intros t b q Hq. unfold send_one. destruct q; cbn [is_pending].
    - assert (b = []) by (apply Hq; auto). subst b. destruct t as [|m t].
      + left. repeat split; auto. discriminate.
      + right. cbn. rewrite app_nil_r. lia.
    - destruct t as [|m t]; left; repeat split; auto; discriminate.
    - destruct t as [|m t].
      + right. cbn. lia.
      + right. cbn. rewrite app_nil_r. lia.
  Qed.

  Lemma forall_or_exists : forall A (P Q : A -> Prop) l, (forall a, In a l -> P a \/ Q a) ->
    (forall a, In a l -> P a) \/ exists a, In a l /\ Q a.
  Proof.
    induction l as [|a l IH]; intros H; [left; intros a []|].
    destruct (H a (or_introl eq_refl)) as [Ha|Ha]; [|right; exists a; split; [left|]; auto].
    destruct IH as [IH|(b & Hb & Hq)].
    - intros b Hb. apply H. right; auto.
    - left. intros b [<-|Hb]; auto.
    - right. exists b. split; [right|]; auto.
  Qed.

  Lemma work_send : forall S r k, inv S -> r < nranks G -> pc (rs S r) = PSend ->
    let S' := mkS (upd (rs S) r (set_pc (try_send_all G r (rs S r)) PHead))
           (fun x y => if x =? r then net S x y ++ sent_batches G r (rs S r) y else net S x y)
           (mail S) in
    work S' < work S \/ quiet (Run r k) S S'.
  Proof.
    intros S r k J Hr Hpc S'. pose proof (i_rank _ _ J r Hr) as R. set (s := rs S r) in *.
    assert (Hne : forall z, z <> r -> rs S' z = rs S z) by (intros; unfold S'; cbn; apply upd_other; auto).
    assert (Hrr : rs S' r = set_pc (try_send_all G r s) PHead) by (unfold S'; cbn; apply upd_same).
    assert (Hcase : forall y, In y (others G r) ->
      (tosend (rs S' r) y = tosend s y /\ buf (rs S' r) y = buf s y /\ req (rs S' r) y = req s y /\ net S' r y = net S r y /\
       req s y <> RDone /\ (req s y = RNone -> tosend s y = [])) \/ wpair S' r y < wpair S r y).
    { intros y Hy. pose proof (send_one_weight (tosend s y) (buf s y) (req s y) (r_req _ _ _ R y Hy)) as W.
      unfold wpair. fold s. rewrite Hrr. cbn [tosend buf req net set_pc set_comm try_send_all S' mail].
      rewrite Nat.eqb_refl. unfold sent_batches. rewrite (proj2 (is_remote_spec G r y) Hy).
      destruct (send_one (tosend s y) (buf s y) (req s y)) as [[[t' b'] q'] sent]. cbn [fst snd].
      destruct W as [(-> & -> & -> & -> & H1 & H2)|W].
      - left. rewrite app_nil_r. auto 10.
      - right. rewrite concat_app, app_length. lia. }
    assert (Hlog : forall z, log (rs S' z) = log (rs S z) /\ ep (rs S' z) = ep (rs S z) /\ queue (rs S' z) = queue (rs S z) /\
              cnt (rs S' z) = cnt (rs S z) /\ torecv (rs S' z) = torecv (rs S z)).
    { intros z. destruct (Nat.eq_dec z r) as [->|Hz]; [|rewrite Hne; auto]. rewrite Hrr. cbn. auto. }
    destruct (forall_or_exists _ _ _ _ Hcase) as [Hall|(y & Hy & Hw)].
    - right. unfold quiet. split; [|split; [|split; [|split; discriminate]]].
      + constructor; intros; try (apply Hlog).
        * unfold loop_cond, total_cnt, total_buf, total_torecv. destruct (Hlog r0) as (_ & _ & _ & -> & ->).
          rewrite (list_sum_map_ext _ (fun x => length (buf (rs S' r0) x)) (fun x => length (buf (rs S r0) x))); [reflexivity|].
          intros y Hy. destruct (Nat.eq_dec r0 r) as [->|Hz]; [|rewrite Hne; auto].
          destruct (Hall y Hy) as (_ & -> & _). reflexivity.
        * destruct (Hlog r0) as (_ & _ & _ & _ & ->). reflexivity.
        * destruct (Nat.eq_dec r0 r) as [->|Hz]; [|rewrite Hne; auto]. apply Hall; auto.
        * destruct (Nat.eq_dec r0 r) as [->|Hz]; [|rewrite Hne; auto]. apply Hall; auto.
        * destruct (Nat.eq_dec r0 r) as [->|Hz]; [apply Hall; auto|].
          unfold S'; cbn [net]. apply Nat.eqb_neq in Hz. rewrite Hz. reflexivity.
        * reflexivity.
      + intros z _ Hz. rewrite Hne; [reflexivity|]. intros ->. apply (Hz k); auto.
      + intros z k' _ E. injection E as <- <-. rewrite Hrr. fold s. rewrite Hpc. cbn.
        apply q_send. intros y Hy. apply Hall; auto.
    - left. apply (work_decrease _ _ r Hr).
      + unfold wrank. destruct (Hlog r) as (-> & -> & _). apply Nat.add_lt_mono_l.
        apply (list_sum_decrease _ _ _ y); auto. intros w Hwo.
        destruct (Hcase w Hwo) as [(E1 & E2 & E3 & E4 & _)|]; [|lia].
        unfold wpair. rewrite E1, E3, E4. unfold S'; cbn [mail]. fold s. lia.
      + intros z _ Hz. unfold wrank, wpair. rewrite Hne by auto. unfold S'; cbn [net mail].
        apply Nat.eqb_neq in Hz. rewrite Hz. reflexivity.
  Qed.

  Lemma quiet_refl : forall S o, (forall z k, z < nranks G -> o = Run z k -> pc (rs S z) = PFinished) ->
    (forall x y, x < nranks G -> In y (others G x) -> o = Deliver x y -> net S x y = []) ->
    (forall x y b, x < nranks G -> In y (others G x) -> o = Complete x y b ->
       req (rs S x) y <> RPending \/ net S x y <> [] \/ mail S x y <> []) ->
    quiet o S S.
  Proof.
    intros S o H1 H2 H3. split; [apply same_refl|]. split; [auto|]. split; [|auto].
    intros z k Hz E. rewrite (H1 z k Hz E). constructor.
  Qed.

  (** Every step reduces the work or is quiet. *)
  Lemma step_progress : forall S o S', inv S -> step G S o = Some S' -> work S' < work S \/ quiet o S S'.
  Proof.
    intros S o S' J. destruct o as [r k|x y|x y eager]; cbn [step].
    - destruct (Nat.ltb_spec r (nranks G)) as [Hr|Hr].
      2:{ intros E; injection E as <-. right. apply quiet_refl; try discriminate. intros z k' Hz E. injection E as <- <-. lia. }
      pose proof (i_rank _ _ J r Hr) as R. unfold run_rank.
      assert (Hepc : pc (rs S r) <> PFinished -> exists cur, nth_error (sweeps G) (ep (rs S r)) = Some cur).
      { intros Y. destruct (r_ep _ _ _ R) as [[Z _]|[_ Z]]; [contradiction|].
        destruct (nth_error (sweeps G) (ep (rs S r))) eqn:E; [eauto|]. apply nth_error_None in E. lia. }
      destruct (pc (rs S r)) as [|[|x l]|n| |] eqn:Hpc.
      + destruct (loop_cond G r (rs S r)) eqn:Hlc.
        * intros E; injection E as <-. right. apply quiet_set_pc. rewrite Hpc.
          destruct (queue (rs S r)) eqn:Hq; [apply q_head_recv; auto|apply q_head_solve; auto; rewrite Hq; discriminate].
        * destruct (inv_next G HG S r J Hr Hpc Hlc) as (s' & E & St & _).
          rewrite E. cbn. intros E'; injection E' as <-. left. apply work_next; auto.
      + intros E; injection E as <-. right. apply quiet_set_pc. rewrite Hpc. constructor.
      + assert (Hskip : torecv (rs S r) x = 0 \/ mail S x r = [] -> quiet (Run r k) S (set_rs S r (set_pc (rs S r) (PRecv l)))).
        { intros. apply quiet_set_pc. rewrite Hpc. constructor. auto. }
        destruct (Nat.ltb_spec 0 (torecv (rs S r) x)) as [Htr|]; [|intros E; injection E as <-; right; apply Hskip; left; lia].
        destruct Hepc as (cur & He); [congruence|].
        destruct (mail S x r) as [|b rest] eqn:Hmail; [intros E; injection E as <-; auto|].
        rewrite He.
        destruct (inv_receive G S r x l b rest cur J Hr Hpc Htr Hmail He) as (s' & E & Rl & Ts & Cn & _).
        rewrite E. intros E'; injection E' as <-. left.
        apply (work_receive S r x l b rest cur s'); auto.
      + destruct (queue (rs S r)) as [|t0 q0] eqn:Hq.
        * intros E; injection E as <-. right. apply quiet_set_pc. rewrite Hpc. constructor. auto.
        * set (q := t0 :: q0) in *.
          destruct Hepc as (cur & He); [congruence|].
          destruct (nth_error q (k mod length q)) as [[c d]|] eqn:Hnth; [|discriminate].
          rewrite He. rewrite <- Hq in Hnth.
          destruct (inv_solve G HG S r n _ (c, d) cur J Hr Hpc Hnth He) as (s' & E & Ef & _).
          cbn [fst snd] in E. rewrite Hq in E. rewrite E. intros E'; injection E' as <-. left.
          apply (work_solve S r (c, d) cur); auto. apply nth_error_In in Hnth. auto.
      + intros E; injection E as <-. apply work_send; auto.
      + intros E; injection E as <-. right. apply quiet_refl; try discriminate. intros z k' _ E. injection E as <- <-. auto.
    - destruct (net S x y) as [|b rest] eqn:Hn; intros E; injection E as <-.
      + right. apply quiet_refl; try discriminate. intros x' y' _ _ E. injection E as <- <-. auto.
      + destruct (Nat.lt_ge_cases x (nranks G)) as [Hx|Hx]; [destruct (in_dec Nat.eq_dec y (others G x)) as [Hy|Hy]|].
        * left. apply work_deliver; auto.
        * right. split; [|split; [reflexivity|split; [discriminate|split; [|discriminate]]]].
          -- constructor; auto; intros a b' Ha Hb; cbn; rewrite upd2_eq;
               destruct (Nat.eqb_spec a x), (Nat.eqb_spec b' y); cbn [andb]; auto; subst; contradiction.
          -- intros a b' _ Hb E. injection E as <- <-. contradiction.
        * right. split; [|split; [reflexivity|split; [discriminate|split; [|discriminate]]]].
          -- constructor; auto; intros a b' Ha Hb; cbn; rewrite upd2_eq;
               destruct (Nat.eqb_spec a x), (Nat.eqb_spec b' y); cbn [andb]; auto; subst; lia.
          -- intros a b' Ha _ E. injection E as <- <-. lia.
    - destruct (req (rs S x) y) eqn:Hq;
        try (intros E; injection E as <-; right; apply quiet_refl; try discriminate;
             intros a b c _ _ E; injection E as <- <- <-; left; congruence).
      destruct (eager || _) eqn:Ha; intros E; injection E as <-.
      + destruct (Nat.lt_ge_cases x (nranks G)) as [Hx|Hx]; [destruct (in_dec Nat.eq_dec y (others G x)) as [Hy|Hy]|].
        * left. apply work_complete; auto.
        * right. split; [|split; [|split; [discriminate|split; [discriminate|]]]].
          -- constructor; intros; cbn; unfold upd; destruct (Nat.eqb_spec r x) as [->|]; cbn; auto.
             destruct (Nat.eqb_spec x0 y) as [->|]; [contradiction|auto].
          -- intros z _ _. cbn. unfold upd. destruct (Nat.eqb_spec z x) as [->|]; auto.
          -- intros a b c _ Hb E. injection E as <- <- <-. contradiction.
        * right. split; [|split; [|split; [discriminate|split; [discriminate|]]]].
          -- constructor; intros; cbn; unfold upd; destruct (Nat.eqb_spec r x) as [->|]; cbn; auto; lia.
          -- intros z Hz _. cbn. unfold upd. destruct (Nat.eqb_spec z x) as [->|]; auto.
          -- intros a b c Hz _ E. injection E as <- <- <-. lia.
      + right. apply quiet_refl; try discriminate. intros a b c _ _ E. injection E as <- <- <-. right.
        apply orb_false_iff in Ha. destruct Ha as [_ Ha].
        destruct (net S x y); [|left; discriminate]. destruct (mail S x y); [discriminate|right; discriminate].
  Qed.
End Live.
