(** Effects of one rank's operations on its own state. *)
From Coq Require Import List Arith Bool Lia Permutation QArith Qcanon.
From Verif Require Import Sweep_Model Sweep_Spec Sweep_Util.
Import ListNotations.
Local Open Scope nat_scope.

(** Messages for a cell and direction which count as dependency. *)
Definition isfor (c : pid) (d : nat) (m : msg) : bool :=
  pid_eqb (m_id m) c && (m_dir m =? d) && negb (m_periodic m).
Definition cntm (c : pid) (d : nat) (l : list msg) : nat := countb (isfor c d) l.
Definition summ (c : pid) (d : nat) (l : list msg) : Qc :=
  Qcsum (map m_rate (filter (isfor c d) l)).

Lemma cntm_app : forall c d l1 l2, cntm c d (l1 ++ l2) = cntm c d l1 + cntm c d l2.
Proof. intros. apply countb_app. Qed.
Lemma cntm_cons : forall c d m l, cntm c d (m :: l) = (if isfor c d m then 1 else 0) + cntm c d l.
Proof. intros. apply countb_cons. Qed.
Lemma summ_app : forall c d l1 l2, summ c d (l1 ++ l2) = (summ c d l1 + summ c d l2)%Qc.
Proof. intros. unfold summ. rewrite filter_app, map_app. apply Qcsum_app. Qed.
Lemma summ_cons : forall c d m l,
  summ c d (m :: l) = ((if isfor c d m then m_rate m else 0) + summ c d l)%Qc.
Proof.
  intros. unfold summ. cbn [filter]. destruct (isfor c d m); cbn [map].
  - rewrite Qcsum_cons. reflexivity.
  - ring.
Qed.
Lemma summ_perm : forall c d l1 l2, Permutation l1 l2 -> summ c d l1 = summ c d l2.
Proof. intros. unfold summ. apply Qcsum_perm, Permutation_map, filter_perm. auto. Qed.
Lemma summ_nocount : forall c d l, cntm c d l = 0 -> summ c d l = 0%Qc.
Proof.
  intros c d l H. unfold summ. unfold cntm, countb in H.
  destruct (filter (isfor c d) l); [reflexivity|discriminate].
Qed.

Section Local.
  Variable G : config.

  (** The state [s'] arises from [s] by taking in the messages [l], apart from
      [tosend]. *)
  Record rel (cur : nat) (l : list msg) (s s' : rstate) : Prop := {
    rel_inc : forall p d, inc s' p d = (inc s p d + summ p d l)%Qc;
    rel_per : (forall m, In m l -> m_periodic m = false) -> forall p d, per s' p d = per s p d;
    rel_miss : forall p d, miss s' p d + (if cur <=? lev G p then cntm p d l else 0) = miss s p d;
    rel_queue : forall t, In t (queue s') <->
        In t (queue s) \/
        (cur <= lev G (fst t) /\ 0 < miss s (fst t) (snd t) /\ miss s' (fst t) (snd t) = 0);
    rel_nodup : NoDup (queue s) -> (forall t, In t (queue s) -> miss s (fst t) (snd t) = 0) ->
        NoDup (queue s');
    rel_out : out s' = out s;
    rel_chem : chem s' = chem s;
    rel_cnt : cnt s' = cnt s;
    rel_torecv : torecv s' = torecv s;
    rel_buf : buf s' = buf s;
    rel_req : req s' = req s;
    rel_ep : ep s' = ep s;
    rel_pc : pc s' = pc s;
    rel_log : log s' = log s
  }.

  Lemma rel_refl : forall cur s, rel cur [] s s.
  Proof.
    intros. constructor; auto.
    - intros. unfold summ. cbn. ring.
    - intros. cbn. destruct (cur <=? lev G p); lia.
    - intros. split; [auto|]. intros [H|(_ & H1 & H2)]; auto. lia.
  Qed.

  Lemma rel_trans : forall cur l1 l2 s1 s2 s3, rel cur l1 s1 s2 -> rel cur l2 s2 s3 ->
    rel cur (l1 ++ l2) s1 s3.
  Proof.
    intros cur l1 l2 s1 s2 s3 A B. destruct A, B. constructor; try congruence.
    - intros. rewrite rel_inc1, rel_inc0, summ_app. ring.
    - intros H p d. rewrite rel_per1, rel_per0; auto; intros; apply H, in_or_app; auto.
    - intros. specialize (rel_miss0 p d). specialize (rel_miss1 p d). rewrite cntm_app.
      destruct (cur <=? lev G p); lia.
    - intros t. rewrite rel_queue1, rel_queue0.
      specialize (rel_miss0 (fst t) (snd t)). specialize (rel_miss1 (fst t) (snd t)).
      split.
      + intros [[H|H]|H]; auto; right; intuition lia.
      + intros [H|(H1 & H2 & H3)]; auto.
        destruct (Nat.eq_dec (miss s2 (fst t) (snd t)) 0); [left; right|right]; intuition lia.
    - intros Hnd Hz. apply rel_nodup1; [apply rel_nodup0; auto|].
      intros t Ht. apply rel_queue0 in Ht. destruct Ht as [Ht|(_ & _ & ?)]; auto.
      specialize (rel_miss0 (fst t) (snd t)). specialize (Hz t Ht). lia.
  Qed.

  (** Whether all messages can be taken in. *)
  Definition takeable (r cur : nat) (l : list msg) (s : rstate) : Prop :=
    (forall m, In m l -> own G r (m_id m) = true) /\
    (forall p d, cur <= lev G p -> cntm p d l <= miss s p d).

  Lemma takeable_step : forall r cur l1 l2 s s', takeable r cur (l1 ++ l2) s -> rel cur l1 s s' ->
    takeable r cur l2 s'.
  Proof.
    intros r cur l1 l2 s s' [H1 H2] R. split.
    - intros. apply H1, in_or_app; auto.
    - intros p d Hp. specialize (H2 p d Hp). rewrite cntm_app in H2.
      pose proof (rel_miss _ _ _ _ R p d) as M. rewrite (proj2 (Nat.leb_le _ _) Hp) in M. lia.
  Qed.

  Lemma takeable_app_l : forall r cur l1 l2 s, takeable r cur (l1 ++ l2) s -> takeable r cur l1 s.
  Proof.
    intros r cur l1 l2 s [H1 H2]. split.
    - intros; apply H1, in_or_app; auto.
    - intros p d Hp. specialize (H2 p d Hp). rewrite cntm_app in H2. lia.
  Qed.

  Lemma updc_eq : forall A (f : pid -> nat -> A) c d v p q,
    updc f c d v p q = if pid_eqb p c && (q =? d) then v else f p q.
  Proof. reflexivity. Qed.

  Lemma handle_local_rel : forall r cur rate d p e s,
    takeable r cur [mkMsg p d rate false e] s ->
    exists s', handle_local_neighbour G r cur rate d p s = Some s' /\
      rel cur [mkMsg p d rate false e] s s' /\ tosend s' = tosend s.
  Proof.
    intros r cur rate d p e s [Ho Hm]. unfold handle_local_neighbour.
    specialize (Ho _ (or_introl eq_refl)). cbn [m_id] in Ho. rewrite Ho.
    assert (Hfor : forall p' d', isfor p' d' (mkMsg p d rate false e) =
      pid_eqb p' p && (d' =? d)).
    { intros. unfold isfor; cbn [m_id m_dir m_periodic negb].
      rewrite andb_true_r, (Nat.eqb_sym d d').
      destruct (pid_eqb_spec p p'), (pid_eqb_spec p' p); congruence. }
    assert (Hinc : forall p' d', updc (inc s) p d (inc s p d + rate)%Qc p' d' =
      (inc s p' d' + summ p' d' [mkMsg p d rate false e])%Qc).
    { intros. rewrite updc_eq, summ_cons, Hfor. unfold summ; cbn [filter map m_rate].
      rewrite Qcsum_nil. destruct (pid_eqb_spec p' p); cbn [andb]; [|ring].
      destruct (Nat.eqb_spec d' d); cbn [andb]; [subst; ring|ring]. }
    destruct (cur <=? lev G p) eqn:Hlev.
    - apply Nat.leb_le in Hlev.
      pose proof (Hm p d Hlev) as Hm1. rewrite cntm_cons, Hfor, pid_eqb_refl, Nat.eqb_refl in Hm1.
      cbn [andb] in Hm1. cbn [miss set_inc].
      destruct (miss s p d) as [|m] eqn:Em; [cbn in Hm1; lia|].
      set (s2 := set_miss _ _).
      assert (Hmiss : forall p' d', miss s2 p' d' +
          (if cur <=? lev G p' then cntm p' d' [mkMsg p d rate false e] else 0) = miss s p' d').
      { intros p' d'. subst s2. cbn [miss set_miss set_inc]. rewrite updc_eq, cntm_cons, Hfor.
        unfold cntm. rewrite countb_nil. destruct (pid_eqb_spec p' p) as [->|]; cbn [andb].
        - rewrite (proj2 (Nat.leb_le _ _) Hlev). destruct (Nat.eqb_spec d' d) as [->|]; cbn; lia.
        - destruct (cur <=? lev G p'); cbn; lia. }
      destruct (Nat.eqb_spec m 0) as [->|Hm0].
      + eexists; split; [reflexivity|]. split; [|reflexivity]. constructor; auto.
        * intros t. cbn [queue set_queue set_miss set_inc s2 In].
          specialize (Hmiss (fst t) (snd t)). cbn [miss set_queue].
          rewrite cntm_cons, Hfor in Hmiss. cbn in Hmiss.
          split.
          -- intros [<-|H]; auto. right. cbn [fst snd] in *. subst s2. cbn. rewrite updc_eq.
             rewrite pid_eqb_refl, Nat.eqb_refl. cbn. lia.
          -- intros [H|(H1 & H2 & H3)]; auto. left. destruct t as [p' d']. cbn [fst snd] in *.
             destruct (pid_eqb_spec p' p) as [->|]; cbn [andb] in Hmiss.
             ++ destruct (Nat.eqb_spec d' d) as [E|]; [congruence|].
                destruct (cur <=? lev G p); cbn in *; lia.
             ++ destruct (cur <=? lev G p'); cbn in *; lia.
        * intros Hnd Hz. cbn [queue set_queue]. constructor; auto.
          intros Hin. specialize (Hz _ Hin). cbn in Hz. congruence.
      + eexists; split; [reflexivity|]. split; [|reflexivity]. constructor; auto.
        * intros t. cbn [queue set_miss set_inc s2].
          specialize (Hmiss (fst t) (snd t)).
          rewrite cntm_cons, Hfor in Hmiss. cbn in Hmiss.
          split; auto. intros [H|(H1 & H2 & H3)]; auto. exfalso.
          destruct t as [p' d']. cbn [fst snd] in *.
          destruct (pid_eqb_spec p' p) as [->|]; cbn [andb] in Hmiss.
          -- destruct (Nat.eqb_spec d' d) as [E|].
             ++ rewrite E in H3. subst s2. cbn in H3. rewrite updc_eq, pid_eqb_refl, Nat.eqb_refl in H3. cbn in H3. auto.
             ++ destruct (cur <=? lev G p); cbn in *; lia.
          -- destruct (cur <=? lev G p'); cbn in *; lia.
    - eexists; split; [reflexivity|]. split; [|reflexivity]. constructor; auto.
      + intros p' d'. cbn [miss set_inc]. rewrite cntm_cons, Hfor. cbn.
        destruct (pid_eqb_spec p' p) as [->|]; [rewrite Hlev; lia|].
        destruct (cur <=? lev G p'); cbn; lia.
      + intros t. cbn. split; auto. intros [H|(_ & H1 & H2)]; auto. lia.
  Qed.

  Lemma handle_local_periodic_rel : forall r cur rate d p e s,
    own G r p = true ->
    exists s', handle_local_periodic G r rate d p s = Some s' /\
      rel cur [mkMsg p d rate true e] s s' /\ tosend s' = tosend s.
  Proof.
    intros r cur rate d p e s Ho. unfold handle_local_periodic. rewrite Ho.
    eexists; split; [reflexivity|]. split; [|reflexivity].
    assert (Hfor : forall p' d', isfor p' d' (mkMsg p d rate true e) = false).
    { intros. unfold isfor. cbn. apply andb_false_r. }
    constructor; auto.
    - intros. cbn [inc set_per]. rewrite summ_cons, Hfor. unfold summ. cbn. ring.
    - intros H. specialize (H _ (or_introl eq_refl)). discriminate.
    - intros. cbn [miss set_per]. rewrite cntm_cons, Hfor. cbn. destruct (cur <=? lev G p0); lia.
    - intros t. cbn. split; auto. intros [H|(_ & H1 & H2)]; auto. lia.
  Qed.

  Lemma recv_loop_rel : forall r cur l s, takeable r cur l s ->
    exists s', recv_loop G r cur l s = Some s' /\ rel cur l s s' /\ tosend s' = tosend s.
  Proof.
    induction l as [|m l IH]; intros s H.
    - exists s. split; [reflexivity|]. split; [apply rel_refl|reflexivity].
    - change (m :: l) with ([m] ++ l) in *. cbn [app recv_loop].
      pose proof (takeable_app_l _ _ _ _ _ H) as H1.
      assert (exists s', (if m_periodic m
               then handle_local_periodic G r (m_rate m) (m_dir m) (m_id m) s
               else handle_local_neighbour G r cur (m_rate m) (m_dir m) (m_id m) s) = Some s'
               /\ rel cur [m] s s' /\ tosend s' = tosend s) as (s' & E & R & T).
      { destruct m as [i d rate p e]. cbn [m_periodic m_rate m_dir m_id]. destruct p.
        - apply handle_local_periodic_rel. apply (proj1 H1 _ (or_introl eq_refl)).
        - apply handle_local_rel. auto. }
      rewrite E. destruct (IH s' (takeable_step _ _ _ _ _ _ H R)) as (s'' & E' & R' & T').
      exists s''. split; [auto|]. split; [|congruence]. apply (rel_trans _ _ _ _ _ _ R R').
  Qed.

  (** Whether a cell is active in a sweep. *)
  Definition act (e : nat) (c : pid) : bool :=
    match nth_error (sweeps G) e with Some cur => cur <=? lev G c | None => false end.

  (** Messages created for the downwind faces: to other ranks and to own cells. *)
  Definition omsg1 (e d : nat) (corr total : Qc) (y : nat) (f : face) : list msg :=
    if downwind f d then
      match f_nb f with
      | Remote p => if act e p && (rank_of p =? y)
                    then [mkMsg p d (corr * (eff_area f d / total))%Qc false e] else []
      | RemotePeriodic p => if act e p && (rank_of p =? y)
                            then [mkMsg p d (corr * (eff_area f d / total))%Qc true e] else []
      | _ => []
      end
    else [].
  Definition omsgs (e d : nat) (corr total : Qc) (fs : list face) (y : nat) : list msg :=
    flat_map (omsg1 e d corr total y) fs.

  Definition lmsg1 (e d : nat) (corr total : Qc) (f : face) : list msg :=
    if downwind f d then
      match f_nb f with
      | Local p => [mkMsg p d (corr * (eff_area f d / total))%Qc false e]
      | LocalPeriodic p => [mkMsg p d (corr * (eff_area f d / total))%Qc true e]
      | _ => []
      end
    else [].
  Definition lmsgs (e d : nat) (corr total : Qc) (fs : list face) : list msg :=
    flat_map (lmsg1 e d corr total) fs.

  Lemma faces_loop_rel : forall r cur d corr total fs s,
    nth_error (sweeps G) (ep s) = Some cur ->
    (forall f p, In f fs -> f_nb f = Remote p \/ f_nb f = RemotePeriodic p ->
       nb_active G r cur p = Some (cur <=? lev G p) /\ is_remote_rank G r (rank_of p) = true) ->
    takeable r cur (lmsgs (ep s) d corr total fs) s ->
    exists s', faces_loop G r cur d corr total fs s = Some s' /\
      rel cur (lmsgs (ep s) d corr total fs) s s' /\
      forall y, tosend s' y = tosend s y ++ omsgs (ep s) d corr total fs y.
  Proof.
    induction fs as [|f fs IH]; intros s He Hr H.
    - exists s. split; [reflexivity|]. split; [apply rel_refl|].
      intros. cbn. rewrite app_nil_r. reflexivity.
    - cbn [lmsgs flat_map faces_loop] in *. fold (lmsgs (ep s) d corr total fs) in *.
      pose proof (takeable_app_l _ _ _ _ _ H) as H1.
      assert (exists s', face_step G r cur d corr total f s = Some s' /\
        rel cur (lmsg1 (ep s) d corr total f) s s' /\
        forall y, tosend s' y = tosend s y ++ omsg1 (ep s) d corr total y f) as (s' & E & R & T).
      { specialize (Hr f). unfold face_step, lmsg1, omsg1 in *.
        destruct (downwind f d).
        2:{ exists s. split; auto. split; [apply rel_refl|]. intros; rewrite app_nil_r; auto. }
        assert (Hrem : forall p b, f_nb f = Remote p \/ f_nb f = RemotePeriodic p ->
          exists s', handle_remote G r cur b (corr * (eff_area f d / total))%Qc d p s = Some s' /\
            rel cur [] s s' /\
            forall y, tosend s' y = tosend s y ++
              (if act (ep s) p && (rank_of p =? y)
               then [mkMsg p d (corr * (eff_area f d / total))%Qc b (ep s)] else [])).
        { intros p b Hp. destruct (Hr p (or_introl eq_refl) Hp) as [Ha Hrem].
          unfold handle_remote, act. rewrite Ha, He. destruct (cur <=? lev G p); cbn [andb].
          - rewrite Hrem. eexists; split; [reflexivity|]. split.
            + constructor; auto; cbn; intros.
              * unfold summ; cbn; ring.
              * destruct (cur <=? lev G p0); lia.
              * split; auto. intros [X|(_ & X & Y)]; auto. lia.
            + intros y. cbn [tosend set_tosend]. unfold upd. rewrite (Nat.eqb_sym y).
              destruct (Nat.eqb_spec (rank_of p) y); [subst; auto|]. rewrite app_nil_r; auto.
          - exists s. split; auto. split; [apply rel_refl|]. intros; rewrite app_nil_r; auto. }
        destruct (f_nb f) as [p|p| |p|p].
        - destruct (handle_local_rel _ _ _ _ _ _ _ H1) as (s' & E & R & T).
          exists s'. repeat split; try apply R; auto. intros; rewrite T, app_nil_r; auto.
        - apply Hrem; auto.
        - exists s. split; auto. split; [apply rel_refl|]. intros; rewrite app_nil_r; auto.
        - destruct (handle_local_periodic_rel r cur (corr * (eff_area f d / total))%Qc d p (ep s) s) as (s' & E & R & T).
          { apply (proj1 H1 _ (or_introl eq_refl)). }
          exists s'. repeat split; try apply R; auto. intros; rewrite T, app_nil_r; auto.
        - apply Hrem; auto. }
      rewrite E. pose proof (rel_ep _ _ _ _ R) as Hep.
      destruct (IH s') as (s'' & E' & R' & T').
      { rewrite Hep. auto. }
      { intros; apply (Hr f0); auto. right; auto. }
      { rewrite Hep. apply (takeable_step _ _ _ _ _ _ H R). }
      exists s''. split; [auto|]. rewrite Hep in R', T'. split.
      + apply (rel_trans _ _ _ _ _ _ R R').
      + intros y. rewrite T', T. unfold omsgs. cbn [flat_map]. rewrite app_assoc. reflexivity.
  Qed.
End Local.
